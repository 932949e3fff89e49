(* ProofJsonH3.v - reading changes only what can be reached, in any graph of objects *)
From Coq Require String. Import String.StringSyntax.
From Verif Require Import Base Dec ModelJson ModelJsonW ModelJsonT ProofCodec4 ProofUMap ModelJsonH SpecJsonH ProofJsonH1.
Local Open Scope outcome_scope.

Section ValInd.
Context (P : val -> Prop).
Context (P0 : forall v, plain v -> P v) (P1 : P (VPtr None)) (P2 : forall v, P v -> P (VPtr (Some v)))
  (P3 : forall l, Forall P l -> P (VList l)) (P4 : forall l, Forall (fun kv => P (snd kv)) l -> P (VMap l))
  (P5 : forall l, Forall (fun kv => P (snd kv)) l -> P (VObj l)).
Fixpoint val_induct (v : val) : P v :=
  match v with
  | VPtr None => P1
  | VPtr (Some p) => P2 p (val_induct p)
  | VList l => P3 l ((fix go l := match l return Forall P l with [] => Forall_nil _ | x :: l' => Forall_cons x (val_induct x) (go l') end) l)
  | VMap l => P4 l ((fix go l := match l return Forall (fun kv => P (snd kv)) l with
      [] => Forall_nil _ | x :: l' => Forall_cons x (val_induct (snd x)) (go l') end) l)
  | VObj l => P5 l ((fix go l := match l return Forall (fun kv => P (snd kv)) l with
      [] => Forall_nil _ | x :: l' => Forall_cons x (val_induct (snd x)) (go l') end) l)
  | VVoid => P0 VVoid Logic.I
  | VBool b => P0 (VBool b) Logic.I
  | VInt b => P0 (VInt b) Logic.I
  | VFloat b => P0 (VFloat b) Logic.I
  | VStr b => P0 (VStr b) Logic.I
  end.
End ValInd.

Section Frame.
Context (B : nat -> Prop).
Definition inside (h : hval) : Prop := forall b, In b (targets h) -> B b.
Definition insides (l : list hval) : Prop := forall h, In h l -> inside h.
Definition insidep (l : list (str * hval)) : Prop := forall k h, In (k, h) l -> inside h.
Lemma inside_list l : inside (HL l) <-> insides l.
Proof.
  split.
  - intros H h I1 b I2. apply H. cbn. apply in_concat. exists (targets h). split; auto. now apply in_map.
  - intros H b I1. cbn in I1. apply in_concat in I1. destruct I1 as (x & I1 & I2). apply in_map_iff in I1. destruct I1 as (h & <- & I1). now apply (H h).
Qed.
Lemma inside_pairs l : (forall b, In b (concat (map (fun kv : str * hval => targets (snd kv)) l)) -> B b) <-> insidep l.
Proof.
  split.
  - intros H k h I1 b I2. apply H. apply in_concat. exists (targets h). split; auto. apply in_map_iff. exists (k, h). auto.
  - intros H b I1. apply in_concat in I1. destruct I1 as (x & I1 & I2). apply in_map_iff in I1. destruct I1 as ([k h] & <- & I1). now apply (H k h).
Qed.
Lemma inside_map l : inside (HM l) <-> insidep l.
Proof. apply inside_pairs. Qed.
Lemma inside_obj l : inside (HO l) <-> insidep l.
Proof. apply inside_pairs. Qed.
Lemma inside_V v : inside (HV v).
Proof. intros b []. Qed.
Lemma insidep_set k x l : inside x -> insidep l -> insidep (aset k x l).
Proof.
  intros Hx. induction l as [|[k' y] l IH]; intros Hl j h; cbn.
  - intros [[= <- <-]|[]]. auto.
  - destruct (str_eqb k k'); intros [K|K].
    + injection K as <- <-. auto.
    + apply (Hl j). now right.
    + injection K as <- <-. apply (Hl k'). now left.
    + revert K. apply IH. intros j' h' K. apply (Hl j'). now right.
Qed.
Lemma insidep_hmap_set k x l : inside x -> insidep l -> insidep (hmap_set k x l).
Proof.
  intros Hx. induction l as [|[k' y] l IH]; intros Hl j h; cbn.
  - intros [[= <- <-]|[]]. auto.
  - destruct (str_eqb k k'); [|destruct (str_ltb k k')]; intros [K|K].
    + injection K as <- <-. auto.
    + apply (Hl j). now right.
    + injection K as <- <-. auto.
    + apply (Hl j). auto.
    + injection K as <- <-. apply (Hl k'). now left.
    + revert K. apply IH. intros j' h' K. apply (Hl j'). now right.
Qed.
Lemma inside_members h : inside h -> insidep (members h).
Proof. destruct h; intro H; try (intros ? ? []). now apply inside_obj. Qed.
Lemma inside_hget p h : inside h -> inside (hget h p).
Proof.
  revert h. induction p as [|k p IH]; intros h H; cbn; auto. destruct (afind k (members h)) as [y|] eqn:E; [|apply inside_V].
  apply IH. apply (inside_members _ H k). now apply afind_In.
Qed.
Lemma inside_hset p x h : inside x -> inside h -> inside (hset h p x).
Proof.
  revert h. induction p as [|k p IH]; intros h Hx H; cbn; auto. apply inside_obj. apply insidep_set; [|now apply inside_members].
  apply IH; auto. destruct (afind k (members h)) as [y|] eqn:E; [|apply inside_V]. apply (inside_members _ H k). now apply afind_In.
Qed.
Lemma inside_hlist h : inside h -> insides (hlist h).
Proof. destruct h; intro H; try (intros ? []). now apply inside_list. Qed.
Lemma inside_hpairs h : inside h -> insidep (hpairs h).
Proof. destruct h; intro H; try (intros ? ? []). now apply inside_map. Qed.

Definition keeps (m m' : store) : Prop :=
  (forall b, ~ B b -> nth_error m' b = nth_error m b) /\ closed m' B /\ length m <= length m'.
Lemma keeps_refl m : closed m B -> keeps m m.
Proof. repeat split; auto. Qed.
Lemma keeps_trans m m1 m2 : keeps m m1 -> keeps m1 m2 -> keeps m m2.
Proof. intros (A1 & A2 & A3) (C1 & C2 & C3). repeat split; auto; [|lia]. intros b N1. rewrite C1, A1; auto. Qed.
Lemma inside_cell m a : closed m B -> B a -> inside (cell m a).
Proof. intros C A b Hb. unfold cell in Hb. destruct (nth_error m a) eqn:E; [eapply C; eauto|destruct Hb]. Qed.
Lemma keeps_put m a h : closed m B -> B a -> inside h -> keeps m (put_cell m a h).
Proof.
  intros C A H. repeat split.
  - intros b N1. apply put_cell_other. congruence.
  - intros a' h' b A' E Ib. destruct (Nat.eq_dec a' a) as [->|Ne].
    + rewrite put_cell_same in E; [injection E as <-; now apply H|]. apply nth_some_lt in E. now rewrite put_cell_length in E.
    + rewrite put_cell_other in E by auto. eapply C; eauto.
  - now rewrite put_cell_length.
Qed.
Lemma keeps_lset m l x : closed m B -> B (fst l) -> inside x -> keeps m (lset m l x).
Proof. intros C A H. apply keeps_put; auto. apply inside_hset; auto. now apply inside_cell. Qed.
Lemma inside_lget m l : closed m B -> B (fst l) -> inside (lget m l).
Proof. intros C A. apply inside_hget. now apply inside_cell. Qed.

Definition all_new (m : store) : Prop := forall b, length m <= b -> B b.
Lemma keeps_snoc m h : closed m B -> all_new m -> inside h -> keeps m (m ++ [h]).
Proof.
  intros C A H. repeat split.
  - intros b N1. apply nth_app. destruct (Nat.lt_ge_cases b (length m)); auto. exfalso. auto.
  - intros a h' b A' E Ib. destruct (Nat.lt_ge_cases a (length m)) as [L|L].
    + rewrite nth_app in E by auto. eapply C; eauto.
    + pose proof (nth_some_lt _ _ _ E) as L'. rewrite app_length in L'. cbn in L'. replace a with (length m) in E by lia. rewrite nth_snoc in E. injection E as <-. auto.
  - rewrite app_length. lia.
Qed.
Lemma keeps_new m m' : keeps m m' -> all_new m -> all_new m'.
Proof. intros (_ & _ & L) A b Hb. apply A. lia. Qed.

Lemma build_keeps v : forall m, closed m B -> all_new m -> inside (fst (build v m)) /\ keeps m (snd (build v m)).
Proof.
  induction v as [v Hp| |v IH|l IH|l IH|l IH] using val_induct; intros m C A.
  - rewrite build_plain by auto. split; [apply inside_V|now apply keeps_refl].
  - cbn. split; [intros b []|now apply keeps_refl].
  - cbn [build]. destruct (IH m C A) as [I1 K1]. destruct (build v m) as [h m1]. cbn [fst snd] in *.
    assert (A1 : all_new m1) by (eapply keeps_new; eauto). split; [intros b [<-|[]]; now apply A1|].
    eapply keeps_trans; eauto. apply keeps_snoc; auto. apply K1.
  - rewrite build_VList. cut (insides (fst (build_l l m)) /\ keeps m (snd (build_l l m))).
    { destruct (build_l l m) as [hs m1]. cbn. intros [I1 K1]. split; auto. now apply inside_list. }
    revert m C A. induction IH as [|x l Hx Hl IHl]; intros m C A; [cbn; split; [intros ? []|now apply keeps_refl]|].
    cbn [build_l]. destruct (Hx m C A) as [I1 K1]. destruct (build x m) as [h m1]. cbn [fst snd] in *.
    destruct (IHl m1 (proj1 (proj2 K1)) (keeps_new _ _ K1 A)) as [I2 K2]. destruct (build_l l m1) as [hs m2]. cbn [fst snd] in *.
    split; [intros j [<-|J]; auto|eapply keeps_trans; eauto].
  - rewrite build_VMap. cut (insidep (fst (build_p l m)) /\ keeps m (snd (build_p l m))).
    { destruct (build_p l m) as [hs m1]. cbn. intros [I1 K1]. split; auto. now apply inside_map. }
    revert m C A. induction IH as [|[k x] l Hx Hl IHl]; intros m C A; [cbn; split; [intros ? ? []|now apply keeps_refl]|].
    cbn [build_p]. destruct (Hx m C A) as [I1 K1]. cbn [snd] in *. destruct (build x m) as [h m1]. cbn [fst snd] in *.
    destruct (IHl m1 (proj1 (proj2 K1)) (keeps_new _ _ K1 A)) as [I2 K2]. destruct (build_p l m1) as [hs m2]. cbn [fst snd] in *.
    split; [intros j y [J|J]; [injection J as <- <-; auto|eauto]|eapply keeps_trans; eauto].
  - rewrite build_VObj. cut (insidep (fst (build_p l m)) /\ keeps m (snd (build_p l m))).
    { destruct (build_p l m) as [hs m1]. cbn. intros [I1 K1]. split; auto. now apply inside_obj. }
    revert m C A. induction IH as [|[k x] l Hx Hl IHl]; intros m C A; [cbn; split; [intros ? ? []|now apply keeps_refl]|].
    cbn [build_p]. destruct (Hx m C A) as [I1 K1]. cbn [snd] in *. destruct (build x m) as [h m1]. cbn [fst snd] in *.
    destruct (IHl m1 (proj1 (proj2 K1)) (keeps_new _ _ K1 A)) as [I2 K2]. destruct (build_p l m1) as [hs m2]. cbn [fst snd] in *.
    split; [intros j y [J|J]; [injection J as <- <-; auto|eauto]|eapply keeps_trans; eauto].
Qed.
Lemma new_keeps e t m : closed m B -> all_new m -> keeps m (snd (new_object e t m)) /\ B (fst (new_object e t m)) /\
  inside (HP (Some (fst (new_object e t m)))).
Proof.
  intros C A. unfold new_object. destruct (build_keeps (dval e t) m C A) as [I1 K1]. destruct (build (dval e t) m) as [h m1]. cbn [fst snd] in *.
  assert (A1 : all_new m1) by (eapply keeps_new; eauto). split; [|split; [apply A1; lia|]].
  - eapply keeps_trans; eauto. apply keeps_snoc; auto. apply K1.
  - intros b [<-|[]]. now apply A1.
Qed.

Definition safe (m : store) (o : outcome (store * bool * reader)) : Prop := match o with Ok (m', _, _) => keeps m m' | _ => True end.
Definition diag (m : store) : store -> store -> Prop := fun s s' => s = s' /\ keeps m s.
Lemma diag_object f fn m r : closed m B -> (forall k s r, keeps m s -> orel (steps (diag m)) (fn k s r) (fn k s r)) ->
  safe m (do (m', r1) <- parse_object f fn m r; Ok (m', false, r1)).
Proof.
  intros C H. pose proof (parse_object_sim (diag m) fn fn f m m r) as K.
  assert (K' : orel (steps (diag m)) (parse_object f fn m r) (parse_object f fn m r)).
  { apply K; [|split; auto; now apply keeps_refl]. intros k s s' r' [<- Ks]. now apply H. }
  destruct (parse_object f fn m r) as [[m' r1]| | | |]; cbn in *; auto. apply K'.
Qed.
Lemma diag_array f fn m r : closed m B -> (forall k s r, keeps m s -> orel (steps (diag m)) (fn k s r) (fn k s r)) ->
  safe m (do (m', r1) <- parse_array f fn m r; Ok (m', false, r1)).
Proof.
  intros C H. pose proof (parse_array_sim (diag m) fn fn f m m r) as K.
  assert (K' : orel (steps (diag m)) (parse_array f fn m r) (parse_array f fn m r)).
  { apply K; [|split; auto; now apply keeps_refl]. intros k s s' r' [<- Ks]. now apply H. }
  destruct (parse_array f fn m r) as [[m' r1]| | | |]; cbn in *; auto. apply K'.
Qed.
Lemma parse_keeps f e : forall t l m r, closed m B -> all_new m -> B (fst l) -> safe m (parse_h f e t l m r).
Proof.
  induction f as [|f IH]; intros t l m r C A Bl; [exact Logic.I|]. cbn [parse_h].
  destruct (nth_error e t) as [d|]; [|exact Logic.I].
  destruct d as [|is64|dbl| |sm i|i|i| |fs ini].
  - destruct (parse_bool r) as [[b r1]| | | |]; cbn; auto. apply keeps_lset; auto. apply inside_V.
  - destruct (parse_int r) as [[b r1]| | | |]; cbn; auto. destruct is64; cbn; auto. apply keeps_lset; auto. apply inside_V.
  - destruct (parse_float r) as [[b r1]| | | |]; cbn; auto. destruct dbl; cbn; auto. apply keeps_lset; auto. apply inside_V.
  - destruct (parse_string r) as [[b r1]| | | |]; cbn; auto. apply keeps_lset; auto. apply inside_V.
  - destruct (peek_tok r) as [[tk r1]| | | |]; cbn [bind]; try exact Logic.I. destruct (same_type tk TNull).
    + destruct (next_tok r1) as [[tk2 r2]| | | |]; cbn; auto. destruct sm; [|now apply keeps_refl]. apply keeps_lset; auto. intros b [].
    + assert (N0 : safe m (let (a, m1) := new_object e i m in
        do (m2, _, r2) <- parse_h f e i (a, []) m1 r1; Ok (lset m2 l (HP (Some a)), false, r2))).
      { pose proof (new_keeps e i m C A) as (K1 & K2 & K3). destruct (new_object e i m) as [a m1]. cbn [fst snd] in *.
        pose proof (IH i (a, []) m1 r1 (proj1 (proj2 K1)) (keeps_new _ _ K1 A) K2) as S1. destruct (parse_h f e i (a, []) m1 r1) as [[[m2 mv] r2]| | | |]; cbn [bind]; try exact Logic.I.
        cbn in *. eapply keeps_trans; [eapply keeps_trans; eauto|]. apply keeps_lset; auto. apply S1. }
      pose proof (inside_lget m l C Bl) as Il. destruct (lget m l) as [vv|[a|]|ll|mm|oo]; try exact N0.
      assert (Ba : B a) by (apply Il; now left). pose proof (IH i (a, []) m r1 C A Ba) as S1.
      destruct (parse_h f e i (a, []) m r1) as [[[m2 mv] r2]| | | |]; cbn in *; auto.
  - apply diag_object; auto. intros k s r0 Ks. pose proof (keeps_new _ _ Ks A) as As. pose proof (new_keeps e i s (proj1 (proj2 Ks)) As) as (K1 & K2 & K3).
    destruct (new_object e i s) as [a m1]. cbn [fst snd] in *.
    pose proof (IH i (a, []) m1 r0 (proj1 (proj2 K1)) (keeps_new _ _ K1 As) K2) as S1. destruct (parse_h f e i (a, []) m1 r0) as [[[m2 mv] r2]| | | |]; cbn [bind]; try exact Logic.I.
    cbn in S1. cbn zeta. assert (K4 : keeps s (put_cell m2 a (HV VVoid))).
    { eapply keeps_trans; [eapply keeps_trans; eauto|]. apply keeps_put; [apply S1|auto|apply inside_V]. }
    destruct (rok r2); [destruct mv; [exact Logic.I|]|].
    + split; cbn [fst snd]; auto. split; auto. eapply keeps_trans; [exact Ks|]. eapply keeps_trans; [exact K4|]. apply keeps_lset; [apply K4|auto|].
      apply inside_map. apply insidep_hmap_set.
      * apply inside_cell; [apply S1|auto].
      * apply inside_hpairs. apply inside_lget; [apply K4|auto].
    + split; cbn [fst snd]; auto. split; auto. eapply keeps_trans; eauto.
  - apply diag_array; auto. intros k s r0 Ks. pose proof (keeps_new _ _ Ks A) as As. pose proof (new_keeps e i s (proj1 (proj2 Ks)) As) as (K1 & K2 & K3).
    destruct (new_object e i s) as [a m1]. cbn [fst snd] in *.
    pose proof (IH i (a, []) m1 r0 (proj1 (proj2 K1)) (keeps_new _ _ K1 As) K2) as S1. destruct (parse_h f e i (a, []) m1 r0) as [[[m2 mv] r2]| | | |]; cbn [bind]; try exact Logic.I.
    cbn in S1. cbn zeta. assert (K4 : keeps s (put_cell m2 a (HV VVoid))).
    { eapply keeps_trans; [eapply keeps_trans; eauto|]. apply keeps_put; [apply S1|auto|apply inside_V]. }
    destruct (rok r2); [destruct mv; [exact Logic.I|]|].
    + split; cbn [fst snd]; auto. split; auto. eapply keeps_trans; [exact Ks|]. eapply keeps_trans; [exact K4|]. apply keeps_lset; [apply K4|auto|].
      apply inside_list. intros h Hh. apply in_app_or in Hh. destruct Hh as [Hh|[<-|[]]].
      * revert Hh. apply inside_hlist. apply inside_lget; [apply K4|auto].
      * apply inside_cell; [apply S1|auto].
    + split; cbn [fst snd]; auto. split; auto. eapply keeps_trans; eauto.
  - destruct (parse_dyn f VVoid r) as [[x r1]| | | |]; cbn [bind]; try exact Logic.I. destruct (peek_tok r) as [[tk r2]| | | |]; cbn; auto.
    destruct (assigns tk); [|now apply keeps_refl]. apply keeps_lset; auto. apply inside_V.
  - apply diag_object; auto. intros k s r0 Ks. pose proof (keeps_new _ _ Ks A) as As. destruct (find_alias fs k) as [fd|].
    + pose proof (IH (f_type fd) (fst l, snd l ++ [f_key fd]) s r0 (proj1 (proj2 Ks)) As Bl) as S1.
      destruct (parse_h f e (f_type fd) _ s r0) as [[[m2 mv] r2]| | | |]; cbn [bind]; try exact Logic.I. split; cbn [fst snd]; auto. split; auto. eapply keeps_trans; eauto.
    + destruct (skip f r0) as [r1| | | |]; cbn; auto. split; auto. split; auto.
Qed.
End Frame.
