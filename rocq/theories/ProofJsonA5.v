(* ProofJsonA5.v - soundness of the parser that builds dynamic values *)
From Coq Require String. Import String.StringSyntax.
From Verif Require Import Base Dec ModelJson ModelJsonW ModelJsonT SpecJson SpecJsonT SpecJsonA ProofJson1 ProofJson2 ProofJson3 ProofJson4 ProofJson5 ProofJson8 ProofJson9 ProofJsonT1 ProofJsonT4 ProofJsonA1 ProofJsonA2 ProofJsonA3 ProofJsonA4.
Local Open Scope outcome_scope.

(* the text ended early, and what was read until then satisfies P *)
Inductive short (d : dialect) (P : json -> Prop) : str -> Prop :=
| so_number w x j : blank d w -> is_number j -> tok_accept d (ntok j) x -> P j -> short d P (w ++ x)
| so_array w s : blank d w -> no_more d s -> P (JArr []) -> short d P (w ++ 91%N :: s)
| so_object w s : blank d w -> no_more d s -> P (JObj []) -> short d P (w ++ 123%N :: s).
Lemma short_imp d (P P' : json -> Prop) s : (forall j, j <> JNull -> P j -> P' j) -> short d P s -> short d P' s.
Proof.
  intros H [w x j|w s1|w s1]; [eapply so_number|eapply so_array|eapply so_object]; eauto; apply H; auto; try discriminate.
  intros ->. contradiction.
Qed.
Lemma short_arr d (P : json -> Prop) s s1 : accepts d s [AArrS] s1 -> no_more d s1 -> P (JArr []) -> short d P s.
Proof.
  intros H N Hp. apply accepts_one_inv in H as (w & x & -> & Bw & Hx).
  assert (x = [91%N]) as -> by (inversion Hx as [t y Ht|y Hy1 Hy2]; subst; inversion Ht; subst; reflexivity).
  cbn [app]. now apply so_array.
Qed.
Lemma short_obj d (P : json -> Prop) s s1 : accepts d s [AObjS] s1 -> no_more d s1 -> P (JObj []) -> short d P s.
Proof.
  intros H N Hp. apply accepts_one_inv in H as (w & x & -> & Bw & Hx).
  assert (x = [123%N]) as -> by (inversion Hx as [t y Ht|y Hy1 Hy2]; subst; inversion Ht; subst; reflexivity).
  cbn [app]. now apply so_object.
Qed.

Lemma look_back r t r1 ts : peek_tok r = Ok (t, r1) -> look r1 ts -> t <> TNone -> look r ts.
Proof.
  intros H L N. apply look_peek in H as ([H|H] & H1); [now left|]. subst t.
  destruct L as [L|L]; [congruence|]. right. now rewrite <- H1.
Qed.
Lemma look_num a j : is_num a -> exists j', a = ntok j' /\ is_number j' \/ j = j'.
Proof. eauto. Qed.
Lemma num_json a : is_num a -> exists j, is_number j /\ ntok j = a /\ toks j = [a].
Proof. destruct a; try contradiction; intros _; [exists (JInt z)|exists (JFloat x)]; cbn; auto. Qed.

(* a parser that meets another token fails *)
Lemma array_not {St} fuel (fn : nat -> St -> reader -> outcome (St * reader)) st r st' r' t r1 :
  (forall i st r st' r', fn i st r = Ok (st', r') -> rsteps r r') ->
  parse_array fuel fn st r = Ok (st', r') -> next_tok r = Ok (t, r1) -> same_type t TNull = false -> same_type t TArrS = false -> errd r'.
Proof.
  intros Hst X X1 N1 N2. unfold parse_array in X. rewrite X1 in X. cbn [bind] in X. rewrite N1 in X.
  apply bind_Ok in X as ([t2 r2] & X2 & X).
  assert (Y : errd r2) by (eapply errd_steps; [eapply rs_peek; eauto|now apply assert_diff]).
  destruct (same_type t2 TArrE).
  - apply bind_Ok in X as ([t3 r3] & X3 & X). injection X as <- <-. eapply errd_steps; [eapply rs_expect; eauto|exact Y].
  - eapply errd_steps; [eapply rs_array_loop; [exact Hst|exact X]|exact Y].
Qed.
Lemma object_not {St} fuel (fn : str -> St -> reader -> outcome (St * reader)) st r st' r' t r1 :
  (forall i st r st' r', fn i st r = Ok (st', r') -> rsteps r r') ->
  parse_object fuel fn st r = Ok (st', r') -> next_tok r = Ok (t, r1) -> same_type t TNull = false -> same_type t TObjS = false -> errd r'.
Proof.
  intros Hst X X1 N1 N2. unfold parse_object in X. rewrite X1 in X. cbn [bind] in X. rewrite N1 in X.
  apply bind_Ok in X as ([t2 r2] & X2 & X).
  assert (Y : errd r2) by (eapply errd_steps; [eapply rs_peek; eauto|now apply assert_diff]).
  destruct (same_type t2 TObjE).
  - apply bind_Ok in X as ([t3 r3] & X3 & X). injection X as <- <-. eapply errd_steps; [eapply rs_expect; eauto|exact Y].
  - eapply errd_steps; [eapply rs_object_loop; [exact Hst|exact X]|exact Y].
Qed.

Section O.
Variable (o : ropts).

(* ---- parse_dyn ---- *)
Definition dyn_elem (_ : nat) (l : list val) (it : list atok) (l' : list val) : Prop :=
  exists j, it = toks j /\ json_ok j /\ l' = l ++ [dyn_value j].
Definition dyn_memb (k : str) (m : list (str * val)) (it : list atok) (m' : list (str * val)) : Prop :=
  exists j, it = toks j /\ json_ok j /\ m' = if ahas k m then m else m ++ [(k, dyn_value j)].

Lemma dyn_achain i l its l' : achain dyn_elem i l its l' ->
  exists js, its = map toks js /\ (forall j, In j js -> json_ok j) /\ l' = l ++ map dyn_value js.
Proof.
  induction 1 as [i l it l1 (j & -> & Hj & ->)|i l it l1 its l2 (j & -> & Hj & ->) _ _ (js & -> & Hjs & ->)].
  - exists [j]. repeat split; auto. intros j' [<-|[]]; auto.
  - exists (j :: js). repeat split; auto; [intros j' [<-|Hi]; auto|]. now rewrite <- app_assoc.
Qed.
Lemma ahas_akeys k (m : list (str * val)) : ahas k m = smem k (akeys m).
Proof. symmetry. apply smem_ahas. Qed.
Lemma dyn_ochain m its m' : ochain dyn_memb m its m' ->
  exists kjs, its = map (fun kv => (fst kv, toks (snd kv))) kjs /\ (forall k j, In (k, j) kjs -> json_ok j) /\
    m' = m ++ firsts (akeys m) (map (fun kv => (fst kv, dyn_value (snd kv))) kjs).
Proof.
  assert (Stp : forall m (k : str) (x : val) l, (if ahas k m then m else m ++ [(k, x)]) ++
     firsts (akeys (if ahas k m then m else m ++ [(k, x)])) l = m ++ firsts (akeys m) ((k, x) :: l)).
  { intros m0 k x l. rewrite firsts_step, <- ahas_akeys. destruct (ahas k m0) eqn:E; [reflexivity|].
    rewrite <- app_assoc. cbn [app]. f_equal. f_equal. apply firsts_perm. intro k'. unfold akeys. rewrite map_app. cbn [map].
    apply Bool.eq_iff_eq_true. rewrite !smem_In, in_app_iff. cbn [In fst]. intuition. }
  induction 1 as [k m it m1 (j & -> & Hj & ->)|k m it m1 its m2 (j & -> & Hj & ->) _ _ (js & -> & Hjs & ->)].
  - exists [(k, j)]. split; [reflexivity|]. split; [intros k' j' [X|[]]; congruence|].
    cbn [map fst snd]. rewrite <- Stp. cbn [firsts]. now rewrite app_nil_r.
  - exists ((k, j) :: js). split; [reflexivity|]. split; [intros k' j' [X|Hi]; [congruence|eauto]|].
    cbn [map fst snd]. now rewrite <- Stp.
Qed.

Lemma dyn_void j : dyn_into VVoid j = dyn_value j. Proof. destruct j; reflexivity. Qed.

(* a number is the look-ahead *)
Lemma dyn_num a fuel v r v' r' : numstate a r -> parse_dyn fuel v r = Ok (v', r') ->
  ended r' /\ rtok r' = TNone /\ exists j, is_number j /\ ntok j = a /\ json_ok j /\ v' = dyn_value j.
Proof.
  intros H X. destruct fuel as [|f]; [discriminate|]. cbn [parse_dyn] in X. apply bind_Ok in X as ([t r1] & X1 & X).
  destruct (peek_num _ _ _ _ H X1) as (-> & ->). pose proof H as (_ & N & K & _).
  destruct (num_tok _ _ N K) as [T|T]; rewrite T in X.
  - apply bind_Ok in X as ([z r2] & X2 & X). injection X as <- <-.
    destruct (int_num _ _ _ _ H X2) as (-> & Iz & En & Tn). split; [exact En|]. split; [exact Tn|]. exists (JInt z). split; [exact I|]. split; [reflexivity|]. split; [now constructor|reflexivity].
  - apply bind_Ok in X as ([z r2] & X2 & X). injection X as <- <-.
    destruct (float_num _ _ _ _ H X2) as (-> & Iz & En & Tn). split; [exact En|]. split; [exact Tn|]. exists (JFloat z). split; [exact I|]. split; [reflexivity|]. split; [now constructor|reflexivity].
Qed.
Lemma dyn_eos fuel v r v' r' : ended r -> rtok r = TEOS \/ rtok r = TNone -> parse_dyn fuel v r = Ok (v', r') -> errd r'.
Proof.
  intros En Ht X. destruct fuel as [|f]; [discriminate|]. cbn [parse_dyn] in X. apply bind_Ok in X as ([t r1] & X1 & X).
  assert (t = TEOS) as ->.
  { unfold peek_tok in X1. destruct Ht as [Ht|Ht]; rewrite Ht in X1; cbn in X1; [congruence|].
    rewrite (lex_not_ok _ (ended_not_ok _ En)) in X1. cbn in X1. congruence. }
  injection X as <- <-. apply err_some.
Qed.
(* a peek that met the end of the text *)
Lemma peek_end s b r t r1 : G o s b r -> byte_string s -> peek_tok r = Ok (t, r1) -> ended r1 ->
  (t = TEOS /\ rtok r1 = TEOS /\ blank_end (dia o) s) \/
  exists w a x, s = w ++ x /\ blank (dia o) w /\ tok_accept (dia o) a x /\ numstate a r1.
Proof.
  intros H Hb X En. destruct (peek_inv_end _ _ _ _ _ _ H Hb X En) as [(-> & Be)|(w & a & x & -> & Ae)].
  - left. repeat split; auto. now apply look_peek in X.
  - right. exists w, a, x. pose proof (at_end_pay _ _ _ _ _ _ Ae) as Hp. destruct Ae as (A1 & A2 & A3 & A4 & A5 & A6).
    repeat split; auto; try apply En. apply look_peek in X as (_ & ->). exact A4.
Qed.
Lemma peek_g s b r t r1 : G o s b r -> byte_string s -> peek_tok r = Ok (t, r1) -> rok r1 = true ->
  rtok r1 = t /\ t <> TNone /\ exists b', G o s b' r1.
Proof.
  intros H Hb X O1. destruct (peek_inv' _ _ _ _ _ _ H Hb X) as (A & _). destruct (A O1) as (Rt & Gx & a & s1 & _ & Hk).
  repeat split; auto. intros ->. now apply kind_none in Hk.
Qed.

Lemma dyn_sound : forall fuel v r v' r', parse_dyn fuel v r = Ok (v', r') ->
  forall s b, G o s b r -> byte_string s ->
  (rok r' = true -> exists j s' b', accepts (dia o) s (toks j) s' /\ json_ok j /\ v' = dyn_into v j /\ Q o s' b' TNone r' /\ look r (toks j)) /\
  (ended r' -> stuck r' /\ short (dia o) (fun j => json_ok j /\ v' = dyn_value j) s).
Proof.
  induction fuel as [|f IH]; intros v r v' r' X; [discriminate|]. intros s b H Hb.
  pose proof X as X0. cbn [parse_dyn] in X. apply bind_Ok in X as ([t r1] & X1 & X).
  assert (vac : errd r' -> (rok r' = true -> exists j s' b', accepts (dia o) s (toks j) s' /\ json_ok j /\ v' = dyn_into v j /\ Q o s' b' TNone r' /\ look r (toks j)) /\
    (ended r' -> stuck r' /\ short (dia o) (fun j => json_ok j /\ v' = dyn_value j) s)).
  { intro Y. split; intro Z; exfalso; [now apply ok_not_errd in Z|now apply ended_not_errd in Z]. }
  assert (S1 : rsteps r1 r').
  { destruct t; try (injection X as <- <-; auto; fail).
    - apply bind_Ok in X as ([m r2] & K & X). injection X as <- <-. eapply rs_object; [|exact K].
      cbv beta. intros k q1 q s' q' Hq. apply bind_Ok in Hq as ([a1 a2] & K0 & Hq). injection Hq as <- <-. eapply rs_dyn; eauto.
    - apply bind_Ok in X as ([m r2] & K & X). injection X as <- <-. eapply rs_array; [|exact K].
      cbv beta. intros k q1 q s' q' Hq. apply bind_Ok in Hq as ([a1 a2] & K0 & Hq). injection Hq as <- <-. eapply rs_dyn; eauto.
    - apply bind_Ok in X as ([m r2] & K & X). injection X as <- <-. eapply rs_string; eauto.
    - apply bind_Ok in X as ([m r2] & K & X). injection X as <- <-. eapply rs_int; eauto.
    - apply bind_Ok in X as ([m r2] & K & X). injection X as <- <-. eapply rs_float; eauto.
    - apply bind_Ok in X as ([m r2] & K & X). injection X as <- <-. eapply rs_bool; eauto.
    - apply bind_Ok in X as (r2 & K & X). injection X as <- <-. eapply rs_null; eauto. }
  destruct (tri r1) as [O1|[O1|O1]]; [| |apply vac; eapply errd_steps; eauto].
  2:{ destruct (peek_end _ _ _ _ _ H Hb X1 O1) as [(-> & _ & _)|(w & a & x & -> & Bw & Ta & Ns)].
      - injection X as <- <-. apply vac, err_some.
      - assert (X2 : parse_dyn (S f) v r1 = Ok (v', r')).
        { cbn [parse_dyn]. assert (P : peek_tok r1 = Ok (t, r1)).
          { pose proof Ns as (_ & N & K & _). unfold peek_tok. apply look_peek in X1 as (_ & X1). rewrite X1 in K |- *.
            destruct (same_type t TNone) eqn:Es; [apply same_none in Es; subst t; rewrite Es in K; now apply kind_none in K|]. reflexivity. }
          rewrite P. exact X. }
        destruct (dyn_num _ _ _ _ _ _ Ns X2) as (En & Tn & j & Nj & Ej & Jo & Ev).
        split; [intro Z; rewrite (ended_not_ok _ En) in Z; discriminate|]. intros _. split; [now left|].
        eapply so_number; eauto. now rewrite Ej. }
  destruct (peek_g _ _ _ _ _ H Hb X1 O1) as (Rt & Nt & b1 & H1).
  assert (Lb : forall ts, look r1 ts -> look r ts) by (intros ts L; eapply look_back; eauto).
  destruct t; try (injection X as <- <-; apply vac, err_some).
  - (* object *)
    apply bind_Ok in X as ([m r2] & X2 & X). injection X as <- <-.
    assert (El : forall k, elem_ok o (fun _ => True) (dyn_memb k) (fun m r => do (x, r') <- parse_dyn f VVoid r; Ok (if ahas k m then m else m ++ [(k, x)], r'))).
    { intros k st q st' q' Y. apply bind_Ok in Y as ([x q1] & Y1 & Y). injection Y as <- <-. split; [eapply rs_dyn; eauto|].
      intros s0 b0 _ H0 Hb0. destruct (IH _ _ _ _ Y1 _ _ H0 Hb0) as (F1 & F2). split; [|intro En; now apply F2].
      intro Hok. destruct (F1 Hok) as (j & s' & b' & Acj & Jo & -> & Hq & _). exists (toks j), s', b'. repeat split; auto.
      exists j. rewrite dyn_void. auto. }
    destruct (parse_object_inv o (fun _ => True) dyn_memb _ El _ _ _ _ _ _ _ X2 I H1 Hb) as (P1 & P2).
    split.
    + intro Z. destruct (P2 Z) as (s' & b' & Hq & _ & [(_ & _ & [Y|Y])|[(Ac2 & -> & L)|(its & Ac2 & _ & Ch & L)]]); try congruence.
      * exists (JObj []), s', b'. split; [exact Ac2|]. split; [constructor; intros ? ? []|]. split; [reflexivity|]. split; [exact Hq|].
        apply Lb. destruct L as [L|L]; [now left|right]. exists AObjS. eexists. split; [reflexivity|]. now left.
      * destruct (dyn_ochain _ _ _ Ch) as (l & -> & Jo & ->). exists (JObj l), s', b'. split; [rewrite toks_obj; exact Ac2|].
        split; [now constructor|]. split; [reflexivity|]. split; [exact Hq|].
        apply Lb. destruct L as [L|L]; [now left|right]. exists AObjS. eexists. split; [reflexivity|]. now left.
    + intro En. destruct (P1 En) as (Sk & s2 & Ac2 & Nm & ->). split; [exact Sk|]. eapply short_obj; eauto.
      split; [constructor; intros ? ? []|reflexivity].
  - apply bind_Ok in X as ([m r2] & X2 & X). injection X as <- <-.
    assert (El : forall k, elem_ok o (fun _ => True) (dyn_elem k) (fun l r => do (x, r') <- parse_dyn f VVoid r; Ok (l ++ [x], r'))).
    { intros k st q st' q' Y. apply bind_Ok in Y as ([x q1] & Y1 & Y). injection Y as <- <-. split; [eapply rs_dyn; eauto|].
      intros s0 b0 _ H0 Hb0. destruct (IH _ _ _ _ Y1 _ _ H0 Hb0) as (F1 & F2). split; [|intro En; now apply F2].
      intro Hok. destruct (F1 Hok) as (j & s' & b' & Acj & Jo & -> & Hq & _). exists (toks j), s', b'. repeat split; auto.
      exists j. rewrite dyn_void. auto. }
    destruct (parse_array_inv o (fun _ => True) dyn_elem _ El _ _ _ _ _ _ _ X2 I H1 Hb) as (P1 & P2).
    split.
    + intro Z. destruct (P2 Z) as (s' & b' & Hq & _ & [(_ & _ & [Y|Y])|[(Ac2 & -> & L)|(its & Ac2 & _ & Ch & L)]]); try congruence.
      * exists (JArr []), s', b'. split; [exact Ac2|]. split; [constructor; intros ? []|]. split; [reflexivity|]. split; [exact Hq|].
        apply Lb. destruct L as [L|L]; [now left|right]. exists AArrS. eexists. split; [reflexivity|]. now left.
      * destruct (dyn_achain _ _ _ _ Ch) as (l & -> & Jo & ->). exists (JArr l), s', b'. split; [rewrite toks_arr; exact Ac2|].
        split; [now constructor|]. split; [reflexivity|]. split; [exact Hq|].
        apply Lb. destruct L as [L|L]; [now left|right]. exists AArrS. eexists. split; [reflexivity|]. now left.
    + intro En. destruct (P1 En) as (Sk & s2 & Ac2 & Nm & ->). split; [exact Sk|]. eapply short_arr; eauto.
      split; [constructor; intros ? []|reflexivity].
  - apply bind_Ok in X as ([x r2] & X2 & X). injection X as <- <-. destruct (str_inv _ _ _ _ _ _ H1 Hb X2) as (NE & A).
    split; [|intro En; contradiction]. intro Z. destruct (A Z) as (s' & b' & Ac & Hq & L). exists (JStr x), s', b'. repeat split; auto. constructor.
  - apply bind_Ok in X as ([x r2] & X2 & X). injection X as <- <-. destruct (int_inv _ _ _ _ _ _ H1 Hb X2) as (NE & A).
    split; [|intro En; destruct (NE En) as (? & ? & _ & _ & _ & _ & Y & _); congruence].
    intro Z. destruct (A Z) as (s' & b' & Ac & Ix & Hq & L). exists (JInt x), s', b'. repeat split; auto; try apply L. now constructor.
  - apply bind_Ok in X as ([x r2] & X2 & X). injection X as <- <-. destruct (float_inv _ _ _ _ _ _ H1 Hb X2) as (NE & A).
    split; [|intro En; destruct (NE En) as (? & ? & _ & _ & _ & _ & Y & _); congruence].
    intro Z. destruct (A Z) as (s' & b' & Ac & Ix & Hq & L). exists (JFloat x), s', b'. repeat split; auto; try apply L. now constructor.
  - apply bind_Ok in X as ([x r2] & X2 & X). injection X as <- <-. destruct (bool_inv _ _ _ _ _ _ H1 Hb X2) as (NE & A).
    split; [|intro En; contradiction]. intro Z. destruct (A Z) as (s' & b' & Ac & Hq & L). exists (JBool x), s', b'. repeat split; auto. constructor.
  - apply bind_Ok in X as (r2 & X2 & X). injection X as <- <-. destruct (null_inv _ _ _ _ _ H1 Hb X2) as (NE & A).
    split; [|intro En; contradiction]. intro Z. destruct (A Z) as (s' & b' & Ac & Hq & L). exists JNull, s', b'. repeat split; auto. constructor.
Qed.
End O.
