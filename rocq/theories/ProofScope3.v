(* ProofScope3.v - registrations, listings and histories *)
From Coq Require String.
Import String.StringSyntax.
From Verif Require Import Base ModelCore ProofMatch ModelScope SpecScope ProofScope1 ProofScope2.
Local Open Scope outcome_scope.

(* ---- views of an extended tree ---- *)
Lemma walk_prefix S x y p : walk S 0 (x ++ y) = Some p -> exists q, walk S 0 x = Some q.
Proof. rewrite walk_app. destruct (walk S 0 x); intro E; [eauto|discriminate]. Qed.

Lemma ext_vscope S S' x0 cs : wf_scopes S -> ext S S' x0 cs -> forall x,
  vscope S' x <-> vscope S x \/ exists c1, prefix c1 cs /\ x = x0 ++ c1.
Proof.
  intros W X x. split.
  - intros (q & Eq). destruct (e_new _ _ _ _ X x q Eq) as [?|(_ & ?)]; [left; exists q; auto|auto].
  - intros [(q & Eq)|(c1 & (z & ->) & ->)].
    + exists q. now apply (e_walk _ _ _ _ X).
    + destruct (e_reach _ _ _ _ X) as (q & Eq). rewrite app_assoc in Eq. eapply walk_prefix; eauto.
Qed.

Lemma ext_vtype S S' x0 cs : wf_scopes S -> ext S S' x0 cs -> forall x c, vtype S' x c <-> vtype S x c.
Proof.
  intros W X x c. split.
  - intros (p & s & Ew & Es & Hin). destruct (e_new _ _ _ _ X x p Ew) as [Eo|(L & _)].
    + destruct (lt_sget S p (walk_lt _ _ _ W Eo)) as (s0 & Es0). destruct (e_data _ _ _ _ X p s0 Es0) as (s1 & Es1 & _ & _ & Ht & _).
      exists p, s0. repeat split; auto. assert (s1 = s) by congruence; subst s1. congruence.
    + destruct (e_empty _ _ _ _ X p s L Es) as (Ht & _). rewrite Ht in Hin. destruct Hin.
  - intros (p & s & Ew & Es & Hin). destruct (e_data _ _ _ _ X p s Es) as (s1 & Es1 & _ & _ & Ht & _).
    exists p, s1. repeat split; auto; [now apply (e_walk _ _ _ _ X)|congruence].
Qed.

Lemma ext_vfn S S' x0 cs : wf_scopes S -> ext S S' x0 cs -> forall x c os, vfn S' x c os <-> vfn S x c os.
Proof.
  intros W X x c os. split.
  - intros (p & s & Ew & Es & Hin). destruct (e_new _ _ _ _ X x p Ew) as [Eo|(L & _)].
    + destruct (lt_sget S p (walk_lt _ _ _ W Eo)) as (s0 & Es0). destruct (e_data _ _ _ _ X p s0 Es0) as (s1 & Es1 & _ & _ & _ & Hf).
      exists p, s0. repeat split; auto. assert (s1 = s) by congruence; subst s1. congruence.
    + destruct (e_empty _ _ _ _ X p s L Es) as (_ & Hf). rewrite Hf in Hin. discriminate.
  - intros (p & s & Ew & Es & Hin). destruct (e_data _ _ _ _ X p s Es) as (s1 & Es1 & _ & _ & _ & Hf).
    exists p, s1. repeat split; auto; [now apply (e_walk _ _ _ _ X)|congruence].
Qed.

(* ---- updating the types or functions of one object ---- *)
Lemma supd_walk S p s s' : sget S p = Some s -> s_scopes s' = s_scopes s -> forall x a, walk (supd S p s') a x = walk S a x.
Proof.
  intros E Hs. induction x as [|c x IH]; intro a; cbn [walk]; auto.
  destruct (Nat.eq_dec a p) as [->|N].
  - rewrite (sget_supd_same _ _ _ _ E), E, Hs. destruct (afind c (s_scopes s)); auto.
  - rewrite sget_supd_other by auto. destruct (sget S a); auto. destruct (afind c _); auto.
Qed.

Lemma supd_wf S p s s' : wf_scopes S -> sget S p = Some s ->
  s_name s' = s_name s -> s_parent s' = s_parent s -> s_scopes s' = s_scopes s ->
  NoDup (map fst (s_types s')) -> NoDup (map fst (s_fns s')) -> wf_scopes (supd S p s').
Proof.
  intros [R C P K] E Hn Hp Hs Kt Kf.
  assert (G : forall q sq, sget (supd S p s') q = Some sq -> exists sq0, sget S q = Some sq0 /\
     s_name sq = s_name sq0 /\ s_parent sq = s_parent sq0 /\ s_scopes sq = s_scopes sq0 /\
     (q = p /\ sq = s' \/ sq = sq0)).
  { intros q sq Eq. destruct (Nat.eq_dec q p) as [->|N].
    - rewrite (sget_supd_same _ _ _ _ E) in Eq. injection Eq as <-. exists s. repeat split; auto.
    - rewrite sget_supd_other in Eq by auto. exists sq. repeat split; auto. }
  assert (G' : forall q sq, sget S q = Some sq -> exists sq', sget (supd S p s') q = Some sq' /\
     s_name sq' = s_name sq /\ s_parent sq' = s_parent sq /\ s_scopes sq' = s_scopes sq).
  { intros q sq Eq. destruct (Nat.eq_dec q p) as [->|N].
    - exists s'. rewrite (sget_supd_same _ _ _ _ E). assert (sq = s) by congruence; subst sq. repeat split; auto.
    - exists sq. rewrite sget_supd_other by auto. repeat split; auto. }
  constructor.
  - destruct R as (r & Er & Pr). destruct (G' _ _ Er) as (r' & ? & ? & ? & ?). exists r'. split; congruence.
  - intros i si k j Ei Hin. destruct (G _ _ Ei) as (si0 & Ei0 & _ & _ & Hsc & _). rewrite Hsc in Hin.
    destruct (C _ _ _ _ Ei0 Hin) as (L & sj & Ej & Pj & Nj). split; auto.
    destruct (G' _ _ Ej) as (sj' & ? & ? & ? & ?). exists sj'. repeat split; congruence.
  - intros j sj Ej Nj. destruct (G _ _ Ej) as (sj0 & Ej0 & Hnm & Hpr & _).
    destruct (P _ _ Ej0 Nj) as (i & si & Pi & Ei & Hin). destruct (G' _ _ Ei) as (si' & Ei' & _ & _ & Hsc).
    exists i, si'. split; [congruence|]. split; [auto|]. rewrite Hsc, Hnm. auto.
  - intros i si Ei. destruct (G _ _ Ei) as (si0 & Ei0 & _ & _ & Hsc & [(-> & ->)| ->]).
    + rewrite Hs. destruct (K _ _ E) as (K1 & _). auto.
    + eauto.
Qed.

(* what changes in the views *)
Lemma supd_vscope S p s s' x : sget S p = Some s -> s_scopes s' = s_scopes s -> (vscope (supd S p s') x <-> vscope S x).
Proof. intros E Hs. unfold vscope. now rewrite (supd_walk _ _ _ _ E Hs). Qed.

Lemma supd_vtype S p s s' x0 : wf_scopes S -> sget S p = Some s -> walk S 0 x0 = Some p -> s_scopes s' = s_scopes s ->
  forall x c, vtype (supd S p s') x c <-> (x <> x0 /\ vtype S x c) \/ (x = x0 /\ In c (map fst (s_types s'))).
Proof.
  intros W E Hx Hs x c. unfold vtype. rewrite (supd_walk _ _ _ _ E Hs). split.
  - intros (q & sq & Ew & Eq & Hin). destruct (list_eq_dec str_dec x x0) as [->|N].
    + right. split; auto. assert (q = p) by congruence; subst q. rewrite (sget_supd_same _ _ _ _ E) in Eq. congruence.
    + left. split; auto. rewrite sget_supd_other in Eq; eauto.
      intros ->. apply N. eapply path_unique; eauto.
  - intros [(N & q & sq & Ew & Eq & Hin)|(-> & Hin)].
    + exists q, sq. repeat split; auto. rewrite sget_supd_other; auto. intros ->. apply N. eapply path_unique; eauto.
    + exists p, s'. repeat split; auto. eapply sget_supd_same; eauto.
Qed.

Lemma supd_vfn S p s s' x0 : wf_scopes S -> sget S p = Some s -> walk S 0 x0 = Some p -> s_scopes s' = s_scopes s ->
  forall x c os, vfn (supd S p s') x c os <-> (x <> x0 /\ vfn S x c os) \/ (x = x0 /\ afind c (s_fns s') = Some os).
Proof.
  intros W E Hx Hs x c os. unfold vfn. rewrite (supd_walk _ _ _ _ E Hs). split.
  - intros (q & sq & Ew & Eq & Hin). destruct (list_eq_dec str_dec x x0) as [->|N].
    + right. split; auto. assert (q = p) by congruence; subst q. rewrite (sget_supd_same _ _ _ _ E) in Eq. congruence.
    + left. split; auto. rewrite sget_supd_other in Eq; eauto.
      intros ->. apply N. eapply path_unique; eauto.
  - intros [(N & q & sq & Ew & Eq & Hin)|(-> & Hin)].
    + exists q, sq. repeat split; auto. rewrite sget_supd_other; auto. intros ->. apply N. eapply path_unique; eauto.
    + exists p, s'. repeat split; auto. eapply sget_supd_same; eauto.
Qed.

(* two views at the same path look at the same object *)
Lemma vtype_at S x c p s : walk S 0 x = Some p -> sget S p = Some s -> (vtype S x c <-> In c (map fst (s_types s))).
Proof.
  intros Ew Es. split.
  - intros (q & sq & Ew' & Eq & H). assert (q = p) by congruence; subst q. congruence.
  - intro H. exists p, s. auto.
Qed.
Lemma vfn_at S x c os p s : walk S 0 x = Some p -> sget S p = Some s -> (vfn S x c os <-> afind c (s_fns s) = Some os).
Proof.
  intros Ew Es. split.
  - intros (q & sq & Ew' & Eq & H). assert (q = p) by congruence; subst q. congruence.
  - intro H. exists p, s. auto.
Qed.

(* ---- a step of the tree described by its views ---- *)
Record step_views (S S' : sheap) (sc : list str -> Prop) (ty : list str -> str -> Prop) : Prop := {
  sv_wf : wf_scopes S';
  sv_scope : forall x, vscope S' x <-> vscope S x \/ sc x;
  sv_type : forall x c, vtype S' x c <-> vtype S x c \/ ty x c }.

(* scope(name) *)
Lemma scope_views name cs S this x0 : Splits name cs -> wf_scopes S -> walk S 0 x0 = Some this ->
  exists S' p, scope S this name = Ok (S', p) /\ wf_scopes S' /\ walk S' 0 (x0 ++ cs) = Some p /\
    (forall x q, walk S 0 x = Some q -> walk S' 0 x = Some q) /\
    (forall x, vscope S' x <-> vscope S x \/ exists c1, prefix c1 cs /\ x = x0 ++ c1) /\
    (forall x c, vtype S' x c <-> vtype S x c) /\ (forall x c os, vfn S' x c os <-> vfn S x c os).
Proof.
  intros Sp W Hx. destruct (scope_ext name cs Sp S this x0 W Hx (Datatypes.S (length name))) as (S' & p & E & X & R); [lia|].
  exists S', p. split; [exact E|]. split; [apply (e_wf _ _ _ _ X)|]. split; auto.
  split; [apply (e_walk _ _ _ _ X)|].
  split; [now apply (ext_vscope _ _ _ _ W X)|]. split; [now apply (ext_vtype _ _ _ _ W X)|].
  now apply (ext_vfn _ _ _ _ W X).
Qed.

(* addType(name): blocked when an inner component is a type or function name *)
Definition blocked (S : sheap) (x0 cs : list str) : Prop :=
  exists c1 d c2, cs = c1 ++ d :: c2 /\ (vtype S (x0 ++ c1) d \/ exists os, vfn S (x0 ++ c1) d os).

Lemma scope_single S this h : head h = Ok (h, []) -> scope S this h = scope_f (Datatypes.S (length h)) S this h.
Proof. reflexivity. Qed.

Lemma blocked_cons S x0 h cs p s : wf_scopes S -> walk S 0 x0 = Some p -> sget S p = Some s ->
  In h (map fst (s_types s)) \/ ahas h (s_fns s) = true -> blocked S x0 (h :: cs).
Proof.
  intros W Hx Es H. exists [], h, cs. split; auto. rewrite app_nil_r. destruct H as [H|H].
  - left. now rewrite (vtype_at _ _ _ _ _ Hx Es).
  - right. unfold ahas in H. destruct (afind h (s_fns s)) as [os|] eqn:E; [|discriminate].
    exists os. now rewrite (vfn_at _ _ _ _ _ _ Hx Es).
Qed.

Lemma addType_views : forall name cs c, Splits name (cs ++ [c]) -> forall S this x0, wf_scopes S -> walk S 0 x0 = Some this ->
  forall n, length name < n ->
  (blocked S x0 cs /\ addType_f n S this name = Abort) \/
  (~ blocked S x0 cs /\ exists S', addType_f n S this name = Ok S' /\ wf_scopes S' /\
    (forall x q, walk S 0 x = Some q -> walk S' 0 x = Some q) /\
    (forall x, vscope S' x <-> vscope S x \/ exists c1, prefix c1 cs /\ x = x0 ++ c1) /\
    (forall x d, vtype S' x d <-> vtype S x d \/ (x = x0 ++ cs /\ d = c)) /\
    (forall x d os, vfn S' x d os <-> vfn S x d os)).
Proof.
  intros name cs. revert name. induction cs as [|h cs IH]; intros name c Sp S this x0 W Hx n Ln;
    (destruct n as [|n]; [lia|]); cbn [addType_f];
    destruct (lt_sget S this (walk_lt _ _ _ W Hx)) as (s & Es).
  - cbn in Sp. inversion Sp as [? ? Hh|? ? t ? Hh Ht Hs]; subst; [|exfalso; exact (Splits_nonempty _ _ Hs eq_refl)].
    rewrite Hh. cbn [bind]. rewrite Es. right. split.
    { intros (c1 & d & c2 & E & _). destruct c1; discriminate. }
    eexists. split; [reflexivity|].
    rewrite app_nil_r.
    assert (VS : forall x, vscope S x <-> vscope S x \/ exists c1, prefix c1 [] /\ x = x0 ++ c1).
    { intro x. split; auto. intros [?|(c1 & (z & E) & ->)]; auto. destruct c1; [|discriminate].
      rewrite app_nil_r. exists this. auto. }
    destruct (ahas c (s_types s)) eqn:Eh.
    + split; auto. split; auto. split; auto. split; [|tauto]. intros x d. split; auto. intros [?|(-> & ->)]; auto.
      rewrite (vtype_at _ _ _ _ _ Hx Es). now apply ahas_In.
    + set (s' := set_types s (s_types s ++ [(c, None)])).
      assert (Hs' : s_scopes s' = s_scopes s) by reflexivity.
      destruct (ws_keys S W _ _ Es) as (K1 & K2 & K3).
      split.
      { apply (supd_wf S this s s'); auto. cbn. rewrite map_app. apply NoDup_snoc; auto.
        intro Hi. change (In c (akeys (s_types s))) in Hi. apply ahas_In in Hi. congruence. }
      split; [intros x q; now rewrite (supd_walk _ _ _ _ Es Hs')|].
      split; [intro x; rewrite (supd_vscope S this s s' x Es Hs'); auto|]. split.
      * intros x d. rewrite (supd_vtype S this s s' x0 W Es Hx Hs'). cbn. rewrite map_app, in_app_iff. cbn.
        destruct (list_eq_dec str_dec x x0) as [->|N].
        -- rewrite (vtype_at _ _ _ _ _ Hx Es). intuition congruence.
        -- intuition congruence.
      * intros x d os. rewrite (supd_vfn S this s s' x0 W Es Hx Hs'). cbn.
        destruct (list_eq_dec str_dec x x0) as [->|N].
        -- rewrite (vfn_at _ _ _ _ _ _ Hx Es). intuition congruence.
        -- intuition congruence.
  - cbn [app] in Sp. inversion Sp as [? ? Hh E|? ? t ? Hh Ht Hs]; subst.
    { destruct cs; discriminate. }
    rewrite Hh. cbn [bind]. rewrite Es, match_nonempty by auto.
    destruct (ahas h (s_types s)) eqn:Et.
    { left. split; auto. eapply blocked_cons; eauto. left. apply ahas_In in Et. auto. }
    destruct (ahas h (s_fns s)) eqn:Ef.
    { left. split; auto. eapply blocked_cons; eauto. }
    destruct (scope_views h [h] S this x0) as (S1 & p1 & E1 & W1 & R1 & M1 & V1 & T1 & F1); auto.
    { apply Sp_last. eapply head_again; eauto. }
    rewrite E1. cbn [bind].
    destruct (IH t c Hs S1 p1 (x0 ++ [h]) W1 R1 n) as [(B & A)|(B & S2 & A & W2 & M2 & V2 & T2 & F2)].
    { pose proof (head_progress _ _ _ Hh Ht). lia. }
    + left. split; auto. destruct B as (c1 & d & c2 & -> & B). exists (h :: c1), d, c2. split; auto.
      rewrite <- app_assoc in B. cbn in B. destruct B as [B|(os & B)]; [left; now apply T1|right; exists os; now apply F1].
    + right. split.
      { intros (c1 & d & c2 & E & Hb). destruct c1 as [|h' c1].
        - injection E as <- <-. rewrite app_nil_r in Hb. destruct Hb as [Hb|(os & Hb)].
          + apply (vtype_at _ _ _ _ _ Hx Es) in Hb. change (In h (akeys (s_types s))) in Hb. apply ahas_In in Hb. congruence.
          + apply (vfn_at _ _ _ _ _ _ Hx Es) in Hb. unfold ahas in Ef. rewrite Hb in Ef. discriminate.
        - injection E as <- ->. apply B. exists c1, d, c2. split; auto. rewrite <- app_assoc. cbn.
          destruct Hb as [Hb|(os & Hb)]; [left; now apply T1|right; exists os; now apply F1]. }
      exists S2. split; auto. split; auto. split; [intros x q Hq; apply M2, M1, Hq|]. split; [|split].
      * intro x. rewrite V2, V1. split.
        -- intros [[?|(c1 & P & ->)]|(c1 & P & ->)]; auto; right.
           ++ exists c1. split; auto. apply prefix_cons_inv in P as [->|(x' & -> & (z & Ez))]; [apply prefix_nil|].
              destruct x'; [|discriminate]. apply prefix_cons, prefix_nil.
           ++ exists (h :: c1). split; [now apply prefix_cons|]. now rewrite <- app_assoc.
        -- intros [?|(c1 & P & ->)]; auto. apply prefix_cons_inv in P as [->|(x' & -> & P)].
           ++ left. right. exists []. split; [apply prefix_nil|auto].
           ++ right. exists x'. split; auto. now rewrite <- app_assoc.
      * intros x d. rewrite T2, T1, <- app_assoc. tauto.
      * intros x d os. now rewrite F2, F1.
Qed.

(* addFunction(name) *)
Definition FSplits (name : str) (cs : list str) (c : str) : Prop :=
  exists t, tail name = Ok (c, t) /\ ((t = [] /\ cs = []) \/ (t <> [] /\ Splits t cs)).

Lemma FSplits_qname cs c : Forall component (cs ++ [c]) -> FSplits (qname (cs ++ [c])) cs c.
Proof.
  intro F. exists (qname cs). split; [now apply tail_qname|]. destruct cs as [|d cs]; [left; auto|right].
  apply Forall_app in F as [F _].
  split; [apply qname_nonempty; [discriminate|auto]|apply Splits_qname; [discriminate|auto]].
Qed.

Definition fns_at (S : sheap) (x : list str) (c : str) (os : overloads) : Prop :=
  vfn S x c os \/ (os = [] /\ forall os', ~ vfn S x c os').

Lemma saddFunction_last H f : forall S this x0 name c n, wf_scopes S -> walk S 0 x0 = Some this ->
  tail name = Ok (c, []) -> 0 < n ->
  exists os0, fns_at S x0 c os0 /\
   ((exists os1 S', overloads_add H os0 f = Ok os1 /\ saddFunction_f n H S this name f = Ok S' /\ wf_scopes S' /\
     (forall x q, walk S 0 x = Some q -> walk S' 0 x = Some q) /\
     (forall x, vscope S' x <-> vscope S x) /\
     (forall x d, vtype S' x d <-> vtype S x d) /\
     (forall x d os, vfn S' x d os <-> ((x <> x0 \/ d <> c) /\ vfn S x d os) \/ (x = x0 /\ d = c /\ os = os1)))
   \/ ((forall os1, overloads_add H os0 f <> Ok os1) /\ forall S', saddFunction_f n H S this name f <> Ok S')).
Proof.
  intros S this x0 name c n W Hx Ht Ln. destruct n as [|n]; [lia|]. cbn [saddFunction_f]. rewrite Ht. cbn [bind].
  destruct (lt_sget S this (walk_lt _ _ _ W Hx)) as (s & Es). rewrite Es.
  set (os0 := match afind c (s_fns s) with Some os => os | None => [] end).
  exists os0. split.
  { unfold fns_at, os0. destruct (afind c (s_fns s)) as [os|] eqn:E.
    - left. now rewrite (vfn_at _ _ _ _ _ _ Hx Es).
    - right. split; auto. intro os'. rewrite (vfn_at _ _ _ _ _ _ Hx Es). congruence. }
  destruct (overloads_add H os0 f) as [os1| | | |] eqn:Ea;
    try (right; split; [intros os1' E'; discriminate E'|intros S' E'; discriminate E']).
  left. exists os1. cbn [bind]. eexists. split; [reflexivity|]. split; [reflexivity|].
  set (s' := set_sfns s (aset c os1 (s_fns s))).
  assert (Hs' : s_scopes s' = s_scopes s) by reflexivity.
  destruct (ws_keys S W _ _ Es) as (K1 & K2 & K3).
  split; [apply (supd_wf S this s s'); auto; cbn; apply (NoDup_akeys_aset c os1 (s_fns s)); auto|].
  split; [intros x q; now rewrite (supd_walk _ _ _ _ Es Hs')|].
  split; [intro x; now apply (supd_vscope S this s s')|]. split.
  - intros x d. rewrite (supd_vtype S this s s' x0 W Es Hx Hs'). cbn.
    destruct (list_eq_dec str_dec x x0) as [->|N].
    + rewrite (vtype_at _ _ _ _ _ Hx Es). intuition congruence.
    + intuition congruence.
  - intros x d os. rewrite (supd_vfn S this s s' x0 W Es Hx Hs'). cbn [s_fns s' set_sfns].
    destruct (list_eq_dec str_dec x x0) as [->|N].
    + rewrite (vfn_at _ _ _ _ _ _ Hx Es). destruct (str_dec d c) as [->|Nd].
      * rewrite afind_aset_same. intuition congruence.
      * rewrite afind_aset_other by auto. intuition congruence.
    + intuition congruence.
Qed.

Lemma tail_nil_again name c t : tail name = Ok (c, t) -> tail c = Ok (c, []).
Proof. apply tail_again. Qed.

Lemma saddFunction_views H f name cs c S this x0 n : FSplits name cs c -> wf_scopes S -> walk S 0 x0 = Some this ->
  1 < n ->
  exists os0, fns_at S (x0 ++ cs) c os0 /\
   ((exists os1 S', overloads_add H os0 f = Ok os1 /\ saddFunction_f n H S this name f = Ok S' /\ wf_scopes S' /\
     (forall x q, walk S 0 x = Some q -> walk S' 0 x = Some q) /\
     (forall x, vscope S' x <-> vscope S x \/ exists c1, prefix c1 cs /\ x = x0 ++ c1) /\
     (forall x d, vtype S' x d <-> vtype S x d) /\
     (forall x d os, vfn S' x d os <-> ((x <> x0 ++ cs \/ d <> c) /\ vfn S x d os) \/ (x = x0 ++ cs /\ d = c /\ os = os1)))
   \/ ((forall os1, overloads_add H os0 f <> Ok os1) /\ forall S', saddFunction_f n H S this name f <> Ok S')).
Proof.
  intros (t & Ht & [(-> & ->)|(Nt & Sp)]) W Hx Ln.
  - rewrite app_nil_r. destruct (saddFunction_last H f S this x0 name c n W Hx Ht ltac:(lia)) as (os0 & A & B).
    exists os0. split; auto. destruct B as [(os1 & S' & B1 & B2 & B3 & B4 & B5 & B6 & B7)|B]; [left|right; auto].
    exists os1, S'. repeat (split; auto); try apply B6; try apply B7; auto.
    + intro E. left. now apply B5.
    + intros [E|(c1 & (z & Ez) & ->)]; [now apply B5|]. destruct c1; [|discriminate].
      apply B5. rewrite app_nil_r. exists this. auto.
  - destruct n as [|n]; [lia|]. cbn [saddFunction_f]. rewrite Ht. cbn [bind].
    destruct t as [|a t]; [congruence|].
    destruct (scope_views (a :: t) cs S this x0 Sp W Hx) as (S1 & p1 & E1 & W1 & R1 & M1 & V1 & T1 & F1).
    rewrite E1. cbn [bind].
    destruct (saddFunction_last H f S1 p1 (x0 ++ cs) c c n W1 R1 (tail_again _ _ _ Ht) ltac:(lia)) as (os0 & A & B).
    exists os0. split.
    { destruct A as [A|(A1 & A2)]; [left; now apply F1|right; split; auto]. intros os' Ho. apply (A2 os'). now apply F1. }
    destruct B as [(os1 & S' & B1 & B2 & B3 & B4 & B5 & B6 & B7)|B]; [left|right; auto].
    exists os1, S'. split; auto. split; auto. split; auto. split; [intros x q Hq; apply B4, M1, Hq|]. split; [|split].
    + intro x. now rewrite B5, V1.
    + intros x d. now rewrite B6, T1.
    + intros x d os. now rewrite B7, F1.
Qed.
