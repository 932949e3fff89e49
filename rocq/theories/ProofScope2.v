(* ProofScope2.v - the scope tree *)
From Coq Require String.
Import String.StringSyntax.
From Verif Require Import Base ModelCore ProofMatch ModelScope SpecScope ProofScope1.

Lemma length_supd S p s : length (supd S p s) = length S.
Proof. revert p; induction S as [|x S IH]; intros [|p]; cbn; auto. Qed.
Lemma sget_supd_same S p s s0 : sget S p = Some s0 -> sget (supd S p s) p = Some s.
Proof. revert p; induction S as [|x S IH]; intros [|p]; cbn; intro E; try discriminate; auto. Qed.
Lemma sget_supd_other S p q s : p <> q -> sget (supd S p s) q = sget S q.
Proof. revert p q; induction S as [|x S IH]; intros [|p] [|q] N; cbn; auto; try congruence. Qed.
Lemma sget_lt S p s : sget S p = Some s -> p < length S.
Proof. intro E. apply nth_error_Some. unfold sget in E. congruence. Qed.
Lemma lt_sget S p : p < length S -> exists s, sget S p = Some s.
Proof. intro L. unfold sget. destruct (nth_error S p) eqn:E; eauto. apply nth_error_None in E. lia. Qed.

Definition mkchild (S : sheap) (i : sptr) (s : scoperec) (h : str) : sheap :=
  supd S i (set_scopes s (s_scopes s ++ [(h, length S)])) ++ [newScope h (Some i)].

Lemma length_mkchild S i s h : length (mkchild S i s h) = Datatypes.S (length S).
Proof. unfold mkchild. rewrite app_length, length_supd. cbn. lia. Qed.
Lemma sget_mkchild_same S i s h : sget S i = Some s ->
  sget (mkchild S i s h) i = Some (set_scopes s (s_scopes s ++ [(h, length S)])).
Proof.
  intro E. unfold mkchild, sget. rewrite nth_error_app1 by (rewrite length_supd; eapply sget_lt; eauto).
  eapply sget_supd_same; eauto.
Qed.
Lemma sget_mkchild_other S i s h p : p <> i -> p < length S -> sget (mkchild S i s h) p = sget S p.
Proof.
  intros N L. unfold mkchild, sget. rewrite nth_error_app1 by (rewrite length_supd; auto).
  apply sget_supd_other. auto.
Qed.
Lemma sget_mkchild_new S i s h : sget (mkchild S i s h) (length S) = Some (newScope h (Some i)).
Proof.
  unfold mkchild, sget. rewrite nth_error_app2 by (rewrite length_supd; auto).
  rewrite length_supd, Nat.sub_diag. reflexivity.
Qed.
(* the non-child data of existing objects is unchanged *)
Definition same_data (s t : scoperec) : Prop :=
  s_name s = s_name t /\ s_parent s = s_parent t /\ s_types s = s_types t /\ s_fns s = s_fns t.
Lemma mkchild_data S i s h p sp : sget S i = Some s -> sget S p = Some sp ->
  exists sp', sget (mkchild S i s h) p = Some sp' /\ same_data sp sp'.
Proof.
  intros E Ep. destruct (Nat.eq_dec p i) as [->|N].
  - rewrite sget_mkchild_same by auto. eexists; split; eauto. assert (sp = s) by congruence; subst sp. repeat split.
  - rewrite sget_mkchild_other; [|auto|eapply sget_lt; eauto]. exists sp. repeat split; auto.
Qed.

Lemma NoDup_snoc {A} (l : list A) x : NoDup l -> ~ In x l -> NoDup (l ++ [x]).
Proof.
  intros N H. rewrite <- (rev_involutive (l ++ [x])). apply NoDup_rev. rewrite rev_app_distr. cbn.
  constructor; [now rewrite <- in_rev|now apply NoDup_rev].
Qed.

Lemma mkchild_wf S i s h : wf_scopes S -> sget S i = Some s -> afind h (s_scopes s) = None ->
  wf_scopes (mkchild S i s h).
Proof.
  intros [R C P K] E Hn. pose proof (sget_lt _ _ _ E) as Li. constructor.
  - destruct R as (r & Er & Pr). destruct (mkchild_data S i s h 0 r E Er) as (r' & Er' & _ & D & _).
    exists r'. split; auto. congruence.
  - intros a sa k j Ea Hin.
    assert (Old : forall sa0, sget S a = Some sa0 -> In (k, j) (s_scopes sa0) ->
      a < j /\ exists sj, sget (mkchild S i s h) j = Some sj /\ s_parent sj = Some a /\ s_name sj = k).
    { intros sa0 E0 H0. destruct (C a sa0 k j E0 H0) as (L & sj & Ej & Pj & Nj). split; auto.
      destruct (mkchild_data S i s h j sj E Ej) as (sj' & Ej' & D1 & D2 & _). exists sj'. repeat split; congruence. }
    pose proof (sget_lt _ _ _ Ea) as La. rewrite length_mkchild in La.
    destruct (Nat.eq_dec a (length S)) as [->|Na].
    { rewrite sget_mkchild_new in Ea. injection Ea as <-. destruct Hin. }
    destruct (Nat.eq_dec a i) as [->|Ni].
    + rewrite sget_mkchild_same in Ea by auto. injection Ea as <-. cbn in Hin.
      apply in_app_iff in Hin as [Hin|[Hin|[]]]; [eauto|]. injection Hin as <- <-.
      split; auto. rewrite sget_mkchild_new. eexists; split; eauto.
    + rewrite sget_mkchild_other in Ea by (auto; lia). eauto.
  - intros j sj Ej Nj. pose proof (sget_lt _ _ _ Ej) as Lj. rewrite length_mkchild in Lj.
    destruct (Nat.eq_dec j (length S)) as [->|N].
    { rewrite sget_mkchild_new in Ej. injection Ej as <-. exists i.
      rewrite sget_mkchild_same by auto. eexists. repeat split. cbn. apply in_app_iff. right. now left. }
    destruct (lt_sget S j) as (sj0 & Ej0); [lia|].
    destruct (mkchild_data S i s h j sj0 E Ej0) as (sj' & Ej' & D1 & D2 & _).
    assert (sj' = sj) by congruence; subst sj'.
    destruct (P j sj0 Ej0 Nj) as (a & sa & Pa & Ea & Ha). exists a.
    destruct (Nat.eq_dec a i) as [->|Ni].
    + rewrite sget_mkchild_same by auto. assert (sa = s) by congruence; subst sa.
      eexists. repeat split; [congruence|]. cbn. rewrite <- D1. apply in_app_iff. auto.
    + rewrite sget_mkchild_other by (auto; eapply sget_lt; eauto). exists sa. repeat split; congruence.
  - intros a sa Ea. pose proof (sget_lt _ _ _ Ea) as La. rewrite length_mkchild in La.
    destruct (Nat.eq_dec a (length S)) as [->|Na].
    { rewrite sget_mkchild_new in Ea. injection Ea as <-. repeat split; constructor. }
    destruct (Nat.eq_dec a i) as [->|Ni].
    + rewrite sget_mkchild_same in Ea by auto. injection Ea as <-. destruct (K _ _ E) as (K1 & K2 & K3).
      cbn. repeat split; auto. rewrite map_app. apply NoDup_snoc; auto. now apply afind_None.
    + rewrite sget_mkchild_other in Ea by (auto; lia). eauto.
Qed.

(* walking in the extended tree *)
Lemma walk_mkchild_old S i s h : wf_scopes S -> sget S i = Some s -> afind h (s_scopes s) = None ->
  forall x a p, walk S a x = Some p -> walk (mkchild S i s h) a x = Some p.
Proof.
  intros W E Hn. induction x as [|c x IH]; intros a p; cbn [walk]; auto.
  destruct (sget S a) as [sa|] eqn:Ea; [|discriminate].
  destruct (afind c (s_scopes sa)) as [b|] eqn:Eb; [|discriminate]. intro Ew.
  destruct (Nat.eq_dec a i) as [->|Ni].
  - rewrite sget_mkchild_same by auto. cbn. rewrite afind_app. assert (sa = s) by congruence; subst sa.
    rewrite Eb. auto.
  - rewrite sget_mkchild_other by (auto; eapply sget_lt; eauto). rewrite Ea, Eb. auto.
Qed.

Lemma walk_new_nil S i s h x p : walk (mkchild S i s h) (length S) x = Some p -> x = [] /\ p = length S.
Proof.
  destruct x as [|c x]; cbn [walk].
  - intro E. injection E as <-. auto.
  - rewrite sget_mkchild_new. cbn. discriminate.
Qed.

Lemma walk_mkchild_inv S i s h : wf_scopes S -> sget S i = Some s -> afind h (s_scopes s) = None ->
  forall x a p, a < length S -> walk (mkchild S i s h) a x = Some p ->
  walk S a x = Some p \/ (p = length S /\ exists x1, x = x1 ++ [h] /\ walk S a x1 = Some i).
Proof.
  intros W E Hn. induction x as [|c x IH]; intros a p La; cbn [walk].
  - auto.
  - destruct (lt_sget S a La) as (sa & Ea). rewrite Ea.
    assert (Old : forall b, afind c (s_scopes sa) = Some b -> walk (mkchild S i s h) b x = Some p ->
       match afind c (s_scopes sa) with Some b => walk S b x | None => None end = Some p
       \/ p = length S /\ exists x1, c :: x = x1 ++ [h] /\ walk S a x1 = Some i).
    { intros b Eb Ew. rewrite Eb.
      assert (Lb : b < length S).
      { destruct (ws_child S W a sa c b Ea) as (_ & sb & Esb & _); [now apply afind_In|]. eapply sget_lt; eauto. }
      destruct (IH b p Lb Ew) as [?|(-> & x1 & -> & W1)]; auto. right. split; auto.
      exists (c :: x1). split; auto. cbn [walk]. now rewrite Ea, Eb. }
    destruct (Nat.eq_dec a i) as [->|Ni].
    + rewrite sget_mkchild_same by auto. cbn [s_scopes set_scopes]. assert (sa = s) by congruence; subst sa.
      rewrite afind_app. destruct (afind c (s_scopes s)) as [b|] eqn:Eb; [apply Old; auto|].
      cbn. destruct (str_eqb_spec c h) as [->|Hne]; [|discriminate].
      intro Ew. apply walk_new_nil in Ew as [-> ->]. right. split; auto. exists []. split; auto.
    + rewrite sget_mkchild_other by auto. rewrite Ea. destruct (afind c (s_scopes sa)) as [b|] eqn:Eb; [|discriminate].
      apply Old; auto.
Qed.

Lemma walk_app S x y : forall a, walk S a (x ++ y) = match walk S a x with Some b => walk S b y | None => None end.
Proof.
  induction x as [|c x IH]; intro a; cbn [walk app]; auto.
  destruct (sget S a); auto. destruct (afind c _); auto.
Qed.

Lemma walk_valid S : wf_scopes S -> forall x a p, a < length S -> walk S a x = Some p -> p < length S.
Proof.
  intro W. induction x as [|c x IH]; intros a p La; cbn [walk].
  - congruence.
  - destruct (sget S a) as [sa|] eqn:Ea; [|discriminate].
    destruct (afind c (s_scopes sa)) as [b|] eqn:Eb; [|discriminate]. apply IH.
    destruct (ws_child S W a sa c b Ea) as (_ & sb & Esb & _); [now apply afind_In|]. eapply sget_lt; eauto.
Qed.

(* last step of a walk *)
Lemma walk_snoc S a x c p : walk S a (x ++ [c]) = Some p <->
  exists q s, walk S a x = Some q /\ sget S q = Some s /\ afind c (s_scopes s) = Some p.
Proof.
  rewrite walk_app. destruct (walk S a x) as [q|].
  - cbn. destruct (sget S q) as [s|] eqn:Eq.
    + destruct (afind c (s_scopes s)) eqn:Ec; split; intro H.
      * injection H as <-. exists q, s. auto.
      * destruct H as (q' & s' & H1 & H2 & H3). injection H1 as <-. assert (s' = s) by congruence; subst s'. congruence.
      * discriminate.
      * destruct H as (q' & s' & H1 & H2 & H3). injection H1 as <-. assert (s' = s) by congruence; subst s'. congruence.
    + split; [discriminate|]. intros (q' & s' & H1 & H2 & _). congruence.
  - split; [discriminate|]. intros (q' & s' & H1 & _). discriminate.
Qed.

(* a scope has exactly one path from the root *)
Lemma walk_ge S : wf_scopes S -> forall x a p, walk S a x = Some p -> a <= p /\ (x <> [] -> a < p).
Proof.
  intro W. induction x as [|c x IH]; intros a p; cbn [walk].
  - intro E. injection E as <-. split; [lia|congruence].
  - destruct (sget S a) as [sa|] eqn:Ea; [|discriminate].
    destruct (afind c (s_scopes sa)) as [b|] eqn:Eb; [|discriminate]. intro Ew. apply IH in Ew as [L _].
    destruct (ws_child S W a sa c b Ea) as (La & _); [now apply afind_In|]. split; lia.
Qed.

Lemma path_unique S : wf_scopes S -> forall x y p, walk S 0 x = Some p -> walk S 0 y = Some p -> x = y.
Proof.
  intro W. induction x as [|c x IH] using rev_ind; intros y p Ex Ey.
  - cbn in Ex. injection Ex as <-. destruct y as [|d y]; auto.
    apply (walk_ge S W) in Ey as [_ L]. assert (0 < 0) by (apply L; discriminate). lia.
  - destruct y as [|d y _] using rev_ind.
    + cbn in Ey. injection Ey as <-. apply (walk_ge S W) in Ex as [_ L].
      assert (0 < 0) by (apply L; destruct x; discriminate). lia.
    + apply walk_snoc in Ex as (q & s & E1 & E2 & E3). apply walk_snoc in Ey as (q' & s' & E1' & E2' & E3').
      apply afind_In in E3. apply afind_In in E3'.
      destruct (ws_child S W _ _ _ _ E2 E3) as (_ & sp & Ep & Pp & Np).
      destruct (ws_child S W _ _ _ _ E2' E3') as (_ & sp' & Ep' & Pp' & Np').
      assert (sp' = sp) by congruence; subst sp'. assert (q' = q) as -> by congruence.
      f_equal; [eapply IH; eauto|congruence].
Qed.

Lemma path_exists S : wf_scopes S -> forall n p, p < n -> p < length S -> exists x, walk S 0 x = Some p.
Proof.
  intro W. induction n as [|n IH]; intros p Lp Lv; [lia|].
  destruct (Nat.eq_dec p 0) as [->|N]; [exists []; reflexivity|].
  destruct (lt_sget S p Lv) as (sp & Ep).
  destruct (ws_parent S W p sp Ep N) as (i & si & Pi & Ei & Hi).
  destruct (ws_child S W _ _ _ _ Ei Hi) as (Li & _).
  destruct (IH i) as [x Ex]; [lia|eapply sget_lt; eauto|].
  exists (x ++ [s_name sp]). apply walk_snoc. exists i, si. repeat split; auto.
  apply In_afind_NoDup; auto. apply (ws_keys S W i si Ei).
Qed.

(* ---- splitting a whole name ---- *)
(* the components obtained by splitting off heads repeatedly *)
Inductive Splits : str -> list str -> Prop :=
| Sp_last name c : head name = Ok (c, []) -> Splits name [c]
| Sp_cons name c t cs : head name = Ok (c, t) -> t <> [] -> Splits t cs -> Splits name (c :: cs).

Lemma Splits_nonempty name cs : Splits name cs -> cs <> [].
Proof. intros []; discriminate. Qed.
Lemma Splits_qname cs : cs <> [] -> Forall component cs -> Splits (qname cs) cs.
Proof.
  induction cs as [|c cs IH]; intros N F; [congruence|].
  inversion F as [|? ? Fc F']; subst. destruct cs as [|d cs].
  - apply Sp_last. apply (head_qname c []). auto.
  - apply Sp_cons with (qname (d :: cs)).
    + apply head_qname; auto.
    + apply qname_nonempty; [discriminate|auto].
    + apply IH; [discriminate|auto].
Qed.
Lemma head_again name h t : head name = Ok (h, t) -> head h = Ok (h, []).
Proof.
  intro E. apply head_iff in E. destruct E as (L & T & _). apply head_iff. cbn. auto.
Qed.
Lemma tail_again name h t : tail name = Ok (h, t) -> tail h = Ok (h, []).
Proof.
  intro E. apply tail_iff in E. destruct E as (L & T & _). apply tail_iff. cbn. auto.
Qed.
Lemma match_nonempty {A B} (q : list A) (x y : B) : q <> [] -> match q with [] => x | _ => y end = y.
Proof. destruct q; congruence. Qed.

(* ---- pure queries ---- *)
Lemma child_lt S this s c p : wf_scopes S -> sget S this = Some s -> afind c (s_scopes s) = Some p -> p < length S.
Proof.
  intros W E F. destruct (ws_child S W this s c p E) as (_ & sb & Esb & _); [now apply afind_In|].
  eapply sget_lt; eauto.
Qed.

Lemma hasScope_walk S : wf_scopes S -> forall name cs, Splits name cs -> forall this, this < length S ->
  forall n, length name < n ->
  hasScope_f n S this name = Ok (match walk S this cs with Some _ => true | None => false end).
Proof.
  intro W. induction 1 as [name c Hh|name c t cs Hh Ht Hs IH]; intros this L n Ln;
    (destruct n as [|n]; [lia|]); cbn [hasScope_f]; rewrite Hh; cbn [bind];
    destruct (lt_sget S this L) as (s & E); rewrite E; cbn [walk]; rewrite E;
    destruct (afind c (s_scopes s)) as [p|] eqn:Ep; auto.
  rewrite match_nonempty by auto. apply IH.
  - eapply child_lt; eauto.
  - pose proof (head_progress _ _ _ Hh Ht). lia.
Qed.

Lemma scope_c_walk S : wf_scopes S -> forall name cs, Splits name cs -> forall this, this < length S ->
  forall n, length name < n ->
  scope_c_f n S this name = match walk S this cs with Some p => Ok p | None => Abort end.
Proof.
  intro W. induction 1 as [name c Hh|name c t cs Hh Ht Hs IH]; intros this L n Ln;
    (destruct n as [|n]; [lia|]); cbn [scope_c_f]; rewrite Hh; cbn [bind];
    destruct (lt_sget S this L) as (s & E); rewrite E; cbn [walk]; rewrite E;
    destruct (afind c (s_scopes s)) as [p|] eqn:Ep; auto.
  rewrite match_nonempty by auto. apply IH.
  - eapply child_lt; eauto.
  - pose proof (head_progress _ _ _ Hh Ht). lia.
Qed.

(* ids *)
Lemma scope_id_path S : wf_scopes S -> forall x p, Forall component x -> walk S 0 x = Some p ->
  forall n, p < n -> scope_id_f n S p = Ok (qname x).
Proof.
  intro W. induction x as [|c x IH] using rev_ind; intros p F Ew n Ln.
  - cbn [walk] in Ew. injection Ew as <-. destruct n; [lia|]. cbn [scope_id_f]. destruct (ws_root S W) as (r & Er & Pr).
    rewrite Er, Pr. reflexivity.
  - apply Forall_app in F as [F Fc]. inversion Fc as [|? ? (Hc & _) _]; subst.
    apply walk_snoc in Ew as (q & s & E1 & E2 & E3). apply afind_In in E3.
    destruct (ws_child S W _ _ _ _ E2 E3) as (L & sp & Ep & Pp & Np).
    destruct n as [|n]; [lia|]. cbn [scope_id_f]. rewrite Ep, Pp.
    rewrite (IH q F E1 n) by lia. cbn [bind]. rewrite Np. f_equal.
    destruct x as [|d x]; [reflexivity|]. rewrite qname_app by discriminate.
    assert (Q : qname (d :: x) <> []) by (apply qname_nonempty; [discriminate|auto]).
    unfold join. destruct (qname (d :: x)); [congruence|reflexivity].
Qed.

(* ---- creating scopes ---- *)
Lemma prefix_nil x : prefix [] x. Proof. exists x; reflexivity. Qed.
Lemma prefix_refl x : prefix x x. Proof. exists []. now rewrite app_nil_r. Qed.
Lemma prefix_cons c x y : prefix x y -> prefix (c :: x) (c :: y).
Proof. intros (z & ->). exists z. reflexivity. Qed.
Lemma prefix_cons_inv x c y : prefix x (c :: y) -> x = [] \/ exists x', x = c :: x' /\ prefix x' y.
Proof.
  intros (z & E). destruct x as [|d x]; auto. right. cbn in E. injection E as -> ->. exists x. split; auto. exists z; auto.
Qed.

(* S' is S with the scopes on the way from x0 to x0 ++ cs added, and nothing else *)
Record ext (S S' : sheap) (x0 cs : list str) : Prop := {
  e_wf : wf_scopes S';
  e_len : length S <= length S';
  e_walk : forall x q, walk S 0 x = Some q -> walk S' 0 x = Some q;
  e_new : forall x q, walk S' 0 x = Some q ->
    walk S 0 x = Some q \/ (length S <= q /\ exists c1, prefix c1 cs /\ x = x0 ++ c1);
  e_reach : exists q, walk S' 0 (x0 ++ cs) = Some q;
  e_data : forall p sp, sget S p = Some sp -> exists sp', sget S' p = Some sp' /\ same_data sp sp';
  e_empty : forall p sp, length S <= p -> sget S' p = Some sp -> s_types sp = [] /\ s_fns sp = [] }.

Lemma same_data_refl s : same_data s s. Proof. repeat split. Qed.
Lemma same_data_trans a b c : same_data a b -> same_data b c -> same_data a c.
Proof. intros (? & ? & ? & ?) (? & ? & ? & ?). repeat split; congruence. Qed.

Lemma ext_refl S x0 cs p : wf_scopes S -> walk S 0 (x0 ++ cs) = Some p -> ext S S x0 cs.
Proof.
  intros W E. constructor; auto; eauto.
  - intros q sq Eq. exists sq. split; auto. apply same_data_refl.
  - intros q sq L Eq. apply sget_lt in Eq. lia.
Qed.

Lemma ext_mkchild S i s h x0 : wf_scopes S -> sget S i = Some s -> afind h (s_scopes s) = None ->
  walk S 0 x0 = Some i -> ext S (mkchild S i s h) x0 [h].
Proof.
  intros W E Hn Hx. pose proof (mkchild_wf _ _ _ _ W E Hn) as W'.
  constructor.
  - exact W'.
  - rewrite length_mkchild. lia.
  - intros x q. apply walk_mkchild_old; auto.
  - intros x q Ew. assert (L0 : 0 < length S) by (pose proof (sget_lt _ _ _ E); lia).
    destruct (walk_mkchild_inv S i s h W E Hn x 0 q L0 Ew) as [?|(-> & x1 & -> & W1)]; auto.
    right. split; auto. exists [h]. split; [apply prefix_refl|].
    rewrite (path_unique S W x1 x0 i W1 Hx). reflexivity.
  - exists (length S). apply walk_snoc. exists i. rewrite sget_mkchild_same by auto. eexists.
    split; [eapply walk_mkchild_old; eauto|]. split; [reflexivity|]. cbn. rewrite afind_app, Hn. cbn.
    now rewrite str_eqb_refl.
  - intros p sp Ep. apply mkchild_data; auto.
  - intros p sp L Ep. pose proof (sget_lt _ _ _ Ep) as L'. rewrite length_mkchild in L'.
    assert (p = length S) by lia; subst p. rewrite sget_mkchild_new in Ep. injection Ep as <-. auto.
Qed.

Lemma ext_trans S S1 S2 x0 h cs : ext S S1 x0 [h] -> ext S1 S2 (x0 ++ [h]) cs -> ext S S2 x0 (h :: cs).
Proof.
  intros [W1 L1 K1 N1 R1 D1 E1] [W2 L2 K2 N2 R2 D2 E2]. constructor; auto; try lia.
  - intros x q Ew. destruct (N2 x q Ew) as [Ew1|(Lq & c1 & Pc & ->)].
    + destruct (N1 x q Ew1) as [?|(Lq & c1 & Pc & ->)]; auto. right. split; auto. exists c1. split; auto.
      apply prefix_cons_inv in Pc as [->|(x' & -> & Px)]; [apply prefix_nil|].
      apply prefix_cons. destruct Px as (z & Ez). destruct x'; [apply prefix_nil|discriminate].
    + right. split; [lia|]. exists (h :: c1). split; [now apply prefix_cons|]. now rewrite <- app_assoc.
  - rewrite <- app_assoc in R2. auto.
  - intros p sp Ep. destruct (D1 p sp Ep) as (sp1 & Ep1 & S1'). destruct (D2 p sp1 Ep1) as (sp2 & Ep2 & S2').
    exists sp2. split; auto. eapply same_data_trans; eauto.
  - intros p sp Lp Ep. destruct (le_lt_dec (length S1) p) as [G|G]; [eapply E2; eauto|].
    destruct (lt_sget S1 p G) as (sp1 & Ep1). destruct (E1 p sp1 Lp Ep1) as (T1 & F1).
    destruct (D2 p sp1 Ep1) as (sp2 & Ep2 & _ & _ & Ht & Hf). assert (sp2 = sp) by congruence; subst sp2. split; congruence.
Qed.

Lemma scope_step1 S this x0 s h : wf_scopes S -> sget S this = Some s -> walk S 0 x0 = Some this ->
  exists S' p, match afind h (s_scopes s) with
        | Some p => (S, p)
        | None =>
          (supd S this (set_scopes s (s_scopes s ++ [(h, length S)])) ++ [newScope h (Some this)], length S)
        end = (S', p) /\ ext S S' x0 [h] /\ walk S' 0 (x0 ++ [h]) = Some p.
Proof.
  intros W E Hx. destruct (afind h (s_scopes s)) as [p|] eqn:Ep.
  - exists S, p. split; auto.
    assert (walk S 0 (x0 ++ [h]) = Some p) by (apply walk_snoc; eauto).
    split; auto. eapply ext_refl; eauto.
  - fold (mkchild S this s h). exists (mkchild S this s h), (length S). split; auto.
    split; [now apply ext_mkchild|].
    apply walk_snoc. exists this. rewrite sget_mkchild_same by auto. eexists.
    split; [eapply walk_mkchild_old; eauto|]. split; [reflexivity|]. cbn. rewrite afind_app, Ep. cbn.
    now rewrite str_eqb_refl.
Qed.

Lemma walk_lt S x p : wf_scopes S -> walk S 0 x = Some p -> p < length S.
Proof.
  intros W E. eapply walk_valid; eauto. destruct (ws_root S W) as (r & Er & _). eapply sget_lt; eauto.
Qed.

Lemma scope_ext : forall name cs, Splits name cs -> forall S this x0, wf_scopes S -> walk S 0 x0 = Some this ->
  forall n, length name < n ->
  exists S' p, scope_f n S this name = Ok (S', p) /\ ext S S' x0 cs /\ walk S' 0 (x0 ++ cs) = Some p.
Proof.
  induction 1 as [name c Hh|name c t cs Hh Ht Hs IH]; intros S this x0 W Hx n Ln;
    (destruct n as [|n]; [lia|]); cbn [scope_f]; rewrite Hh; cbn [bind];
    destruct (lt_sget S this (walk_lt _ _ _ W Hx)) as (s & E); rewrite E;
    destruct (scope_step1 S this x0 s c W E Hx) as (S1 & p1 & Eq & X1 & R1); rewrite Eq.
  - eauto.
  - rewrite match_nonempty by auto.
    destruct (IH S1 p1 (x0 ++ [c]) (e_wf _ _ _ _ X1) R1 n) as (S2 & p2 & E2 & X2 & R2).
    { pose proof (head_progress _ _ _ Hh Ht). lia. }
    exists S2, p2. split; auto. split; [eapply ext_trans; eauto|]. now rewrite <- app_assoc in R2.
Qed.

Lemma scope_Splits S this : this < length S -> wf_scopes S -> forall n name S' p,
  scope_f n S this name = Ok (S', p) -> exists cs, Splits name cs.
Proof.
  intros L W n. revert S this L W. induction n as [|n IH]; intros S this L W name S' p; cbn [scope_f]; [discriminate|].
  intro E. apply bind_Ok in E as ((h & t) & Hh & E).
  destruct (lt_sget S this L) as (s & Es). rewrite Es in E.
  destruct (path_exists S W (Datatypes.S this) this) as (x0 & Hx); auto.
  destruct (scope_step1 S this x0 s h W Es Hx) as (S1 & p1 & Eq & X1 & R1). rewrite Eq in E.
  destruct t as [|a t].
  - exists [h]. now apply Sp_last.
  - destruct (IH S1 p1 (walk_lt _ _ _ (e_wf _ _ _ _ X1) R1) (e_wf _ _ _ _ X1) _ _ _ E) as (cs & Hs).
    exists (h :: cs). eapply Sp_cons; eauto. discriminate.
Qed.

(* a malformed name aborts *)
Lemma Splits_or_abort : forall n name, length name < n -> (exists cs, Splits name cs) \/
  (forall S this m, wf_scopes S -> this < length S -> length name < m -> scope_f m S this name = Abort).
Proof.
  induction n as [|n IH]; intros name Ln; [lia|].
  destruct (head_total name) as [(h & t & Hh)|Hh].
  - destruct t as [|a t]; [left; exists [h]; now apply Sp_last|].
    pose proof (head_progress _ _ _ Hh ltac:(discriminate)) as Lp.
    destruct (IH (a :: t) ltac:(lia)) as [(cs & Hs)|Ha].
    + left. exists (h :: cs). eapply Sp_cons; eauto. discriminate.
    + right. intros S this m W L Lm. destruct m as [|m]; [lia|]. cbn [scope_f]. rewrite Hh. cbn [bind].
      destruct (lt_sget S this L) as (s & Es). rewrite Es.
      destruct (path_exists S W (Datatypes.S this) this) as (x0 & Hx); auto.
      destruct (scope_step1 S this x0 s h W Es Hx) as (S1 & p1 & Eq & X1 & R1). rewrite Eq.
      apply Ha; [apply (e_wf _ _ _ _ X1)|eapply walk_lt; [apply (e_wf _ _ _ _ X1)|eauto]|lia].
  - right. intros S this m W L Lm. destruct m as [|m]; [lia|]. cbn [scope_f]. rewrite Hh. reflexivity.
Qed.
