(* ProofPtr.v - shares of ownership in memory (used by ProofPtr2 and PropPtr, C71). *)
From Coq Require String.
Import String.StringSyntax.
From Coq Require Import Permutation.
From Verif Require Import Base ModelCore SpecCore ModelValue SpecValue ModelPlumb SpecPlumb ModelCont SpecCont ProofCont ModelPtr SpecPtr.

Definition cnt (k : nat) (ps : list share) : nat :=
  length (filter (fun s => match snd s with Some k' => Nat.eqb k' k | None => false end) ps).
Definition targets (ps : list share) : list addr := flat_map (fun s : share => match fst s with Some a => [a] | None => [] end) ps.
Definition holding (ps : list share) (a : addr) : Prop := exists c, In (Some a, c) ps.

Record Inv (shared : bool) (m : mem) (ps : list share) : Prop := {
  iv_live : forall a, holding ps a -> live m a;
  iv_own : if shared
    then (forall p, In (p, None) ps -> p = None) /\
         (forall p k, In (p, Some k) ps -> m k = DCtl (cnt k ps) p) /\
         (forall a c c', In (Some a, c) ps -> In (Some a, c') ps -> c = c')
    else NoDup (targets ps) }.

Lemma cnt_perm k ps qs : Permutation ps qs -> cnt k ps = cnt k qs.
Proof. intro P. unfold cnt. induction P; cbn; auto; try congruence; repeat (match goal with |- context[match ?x with Some _ => _ | None => _ end] => destruct x as [?|] end; cbn); repeat (match goal with |- context[if ?x then _ else _] => destruct x end; cbn); try congruence; auto. Qed.
Lemma in_targets ps a : In a (targets ps) <-> holding ps a.
Proof.
  unfold targets, holding. rewrite in_flat_map. split.
  - intros ([p c] & I & J). cbn in J. destruct p as [x|]; [|contradiction]. destruct J as [->|[]]. eauto.
  - intros (c & I). exists (Some a, c). split; [exact I|]. now left.
Qed.
Lemma targets_perm ps qs : Permutation ps qs -> Permutation (targets ps) (targets qs).
Proof. intro P. unfold targets. now apply Permutation_flat_map. Qed.
Lemma holding_perm ps qs a : Permutation ps qs -> holding ps a <-> holding qs a.
Proof. intro P. unfold holding. split; intros (c & I); exists c; [eapply Permutation_in; eauto|eapply Permutation_in; [apply Permutation_sym, P|exact I]]. Qed.

Lemma inv_perm shared m ps qs : Permutation ps qs -> Inv shared m ps -> Inv shared m qs.
Proof.
  intros P [L O]. assert (P' := Permutation_sym P). split.
  - intros a Ha. apply L. now apply (holding_perm ps qs).
  - destruct shared.
    + destruct O as (O1 & O2 & O3). split; [|split]; intros.
      * apply O1. eapply Permutation_in; eauto.
      * rewrite <- (cnt_perm k ps qs P). apply O2. eapply Permutation_in; eauto.
      * eapply O3; eapply Permutation_in; eauto.
    + eapply Permutation_NoDup; [apply targets_perm, P|exact O].
Qed.

(* a memory that agrees on objects and control blocks *)
Lemma inv_frame shared m m' ps :
  (forall y, holding ps (y, 0%N) -> m' y = m y) ->
  (forall y p, In (p, Some y) ps -> m' y = m y) -> Inv shared m ps -> Inv shared m' ps.
Proof.
  intros F1 F2 [L O]. split.
  - intros a Ha. destruct (L a Ha) as (E & d & Ed). split; auto. exists d. rewrite F1; auto. destruct a as [y z]. cbn in *. now subst z.
  - destruct shared; auto. destruct O as (O1 & O2 & O3). split; [exact O1|]. split; [|exact O3].
    intros p k I. rewrite (F2 _ _ I). auto.
Qed.

Lemma inv_empty shared m ps : Inv shared m ps -> Inv shared m ((None, None) :: ps).
Proof.
  intros [L O]. split.
  - intros a (c & [E|I]); [discriminate|]. apply L. now exists c.
  - destruct shared; [|exact O]. destruct O as (O1 & O2 & O3). split; [|split].
    + intros p [E|I]; [congruence|auto].
    + intros p k [E|I]; [discriminate|]. now apply O2.
    + intros a c c' [E|I] [E'|I']; try discriminate. eapply O3; eauto.
Qed.

Lemma cnt_zero k ps : (forall p, ~ In (p, Some k) ps) -> cnt k ps = 0.
Proof.
  unfold cnt. induction ps as [|[p c] ps IH]; intro N; [reflexivity|]. cbn. destruct c as [k'|].
  - destruct (Nat.eqb_spec k' k) as [->|Q]; [elim (N p); now left|]. apply IH. intros q I. apply (N q). now right.
  - apply IH. intros q I. apply (N q). now right.
Qed.
Lemma cnt_pos k ps p : In (p, Some k) ps -> exists n, cnt k ps = S n.
Proof.
  unfold cnt. induction ps as [|[q c] ps IH]; [contradiction|]. intros [E|I]; cbn.
  - injection E as -> ->. rewrite Nat.eqb_refl. cbn. eauto.
  - destruct (IH I) as (n & En). destruct c as [k'|]; [destruct (Nat.eqb k' k); cbn; eauto|eauto].
Qed.
Lemma cnt_some k ps n : cnt k ps = S n -> exists q, In (q, Some k) ps.
Proof.
  unfold cnt. induction ps as [|[q c] ps IH]; cbn; [discriminate|]. destruct c as [k'|].
  - destruct (Nat.eqb_spec k' k) as [->|Q]; [eauto|]. intro E. destruct (IH E) as (r & J). eauto.
  - intro E. destruct (IH E) as (r & J). eauto.
Qed.
Lemma cnt_cons_same k p ps : cnt k ((p, Some k) :: ps) = S (cnt k ps).
Proof. unfold cnt. cbn. now rewrite Nat.eqb_refl. Qed.
Lemma cnt_cons_other k p c ps : c <> Some k -> cnt k ((p, c) :: ps) = cnt k ps.
Proof. unfold cnt. cbn. destruct c as [k'|]; [|reflexivity]. destruct (Nat.eqb_spec k' k); congruence. Qed.

(* taking an object in *)
Lemma inv_take shared m next p ps : unborn m next -> Inv shared m ps ->
  (forall a, p = Some a -> live m a /\ ~ holding ps a) ->
  exists m' next' c, take shared m next p = (m', next', (p, c)) /\ next <= next' /\ unborn m' next' /\ (forall y, m y <> DNone -> m' y = m y) /\
    Inv shared m' ((p, c) :: ps) /\ (shared = false -> m' = m /\ next' = next).
Proof.
  intros U I A. pose proof I as [L O]. destruct shared; unfold take.
  - eexists _, _, _. split; [reflexivity|]. split; [lia|]. split; [now apply unborn_mset|].
    assert (F : forall y, m y <> DNone -> mset m next (DCtl 1 p) y = m y).
    { intros y Ny. apply mset_other. apply (born m _ _ U) in Ny. lia. }
    split; [exact F|]. split; [|discriminate].
    destruct O as (O1 & O2 & O3). assert (Nk : forall q, ~ In (q, Some next) ps).
    { intros q J. apply O2 in J. rewrite (U next) in J by lia. discriminate. }
    split.
    + intros a (c & [E|J]).
      * injection E as -> _. destruct (A a eq_refl) as ((E1 & d & E2) & _). split; auto. exists d. rewrite F; congruence.
      * destruct (L a) as (E1 & d & E2); [now exists c|]. split; auto. exists d. rewrite F; congruence.
    + split; [|split].
      * intros q [E|J]; [discriminate|auto].
      * intros q k [E|J].
        -- injection E as -> ->. rewrite mset_same, cnt_cons_same, cnt_zero; auto.
        -- assert (k <> next) by (intros ->; eapply Nk; eauto). rewrite cnt_cons_other by congruence.
           rewrite F; [now apply O2|]. rewrite (O2 _ _ J). discriminate.
      * intros a c c' [E|J] [E'|J'].
        -- congruence.
        -- injection E as -> _. elim (proj2 (A a eq_refl)). now exists c'.
        -- injection E' as -> _. elim (proj2 (A a eq_refl)). now exists c.
        -- eapply O3; eauto.
  - eexists _, _, _. split; [reflexivity|]. split; [lia|]. split; [exact U|]. split; [auto|]. split; [|auto]. split.
    + intros a (c & [E|J]); [injection E as -> _; now apply A|]. apply L. now exists c.
    + cbn. destruct p as [a|]; cbn; [|exact O]. constructor; [|exact O]. rewrite in_targets. now apply A.
Qed.

(* one more owner *)
Lemma inv_retain m p c ps : Inv true m ps -> In (p, c) ps ->
  exists m', retain m (p, c) = Ok m' /\ Inv true m' ((p, c) :: ps) /\
    (forall y, (forall n q, m y <> DCtl n q) -> m' y = m y) /\ (forall y n q, m y = DCtl n q -> exists n', m' y = DCtl n' q).
Proof.
  intros [L (O1 & O2 & O3)] J. unfold retain. cbn [snd]. destruct c as [k|].
  - pose proof (O2 _ _ J) as Ek. rewrite Ek. eexists. split; [reflexivity|].
    assert (F : forall y, (forall n q, m y <> DCtl n q) -> mset m k (DCtl (S (cnt k ps)) p) y = m y).
    { intros y Ny. apply mset_other. intros ->. eapply Ny; eauto. }
    split; [|split; [exact F|]].
    + split.
      * intros a (c & [E|I]).
        -- injection E as -> _. destruct (L a) as (E1 & d & E2); [eexists; eauto|]. split; auto. exists d. rewrite F; auto. congruence.
        -- destruct (L a) as (E1 & d & E2); [eexists; eauto|]. split; auto. exists d. rewrite F; auto. congruence.
      * split; [|split].
        -- intros q [E|I]; [discriminate|auto].
        -- intros q k' [E|I].
           ++ injection E as -> ->. now rewrite mset_same, cnt_cons_same.
           ++ destruct (Nat.eq_dec k' k) as [->|Q].
              ** rewrite mset_same, cnt_cons_same. pose proof (O2 _ _ I). congruence.
              ** rewrite mset_other, cnt_cons_other by congruence. auto.
        -- intros a c c' [E|I] [E'|I'].
           ++ congruence.
           ++ injection E as -> <-. eapply O3; eauto.
           ++ injection E' as -> <-. eapply O3; eauto.
           ++ eapply O3; eauto.
    + intros y n q Ey. destruct (Nat.eq_dec y k) as [->|Q]; [rewrite mset_same; assert (q = p) by congruence; subst; eauto|].
      rewrite mset_other by auto. eauto.
  - pose proof (O1 _ J) as ->. eexists. split; [reflexivity|]. split; [|split; eauto]. apply inv_empty. split; auto.
Qed.

Lemma delete_ok m a : live m a -> delete m (Some a) = Ok (mset m (fst a) DNone).
Proof. intros (E & d & Ed). unfold delete. rewrite E, Ed. reflexivity. Qed.

(* one owner less *)
Lemma inv_drop shared m p c ps : Inv shared m ((p, c) :: ps) ->
  exists m', drop shared m (p, c) = Ok m' /\ Inv shared m' ps /\
    (forall a, p = Some a -> ~ holding ps a -> m' (fst a) = DNone) /\
    (forall y, (forall n q, m y <> DCtl n q) -> (forall a, p = Some a -> ~ holding ps a -> y <> fst a) -> m' y = m y) /\
    (forall y n q, m y = DCtl n q -> m' y = DNone \/ exists n', m' y = DCtl n' q).
Proof.
  intros [L O]. assert (Lp : forall a, holding ps a -> live m a).
  { intros a (c0 & I). apply L. exists c0. now right. }
  destruct shared; unfold drop; cbn [fst snd].
  - destruct O as (O1 & O2 & O3). destruct c as [k|].
    + pose proof (O2 p k (or_introl eq_refl)) as Ek. rewrite cnt_cons_same in Ek. rewrite Ek. destruct (cnt k ps) as [|n] eqn:En.
      * assert (Nk : forall q, ~ In (q, Some k) ps) by (intros q J; destruct (cnt_pos _ _ _ J); congruence).
        assert (Hp : forall a, p = Some a -> ~ holding ps a).
        { intros a -> (c & J). assert (c = Some k) by (eapply O3; [right; exact J|now left]). subst c. eapply Nk; eauto. }
        assert (D : exists m1, delete m p = Ok m1 /\ (forall a, p = Some a -> m1 (fst a) = DNone) /\ (forall y, (forall a, p = Some a -> y <> fst a) -> m1 y = m y)).
        { destruct p as [a|].
          - exists (mset m (fst a) DNone). split; [apply delete_ok, L; exists (Some k); now left|]. split.
            + intros a' E. injection E as <-. apply mset_same.
            + intros y Ny. apply mset_other. auto.
          - exists m. split; [reflexivity|]. split; [discriminate|auto]. }
        destruct D as (m1 & D1 & D2 & D3). rewrite D1. cbn [bind]. eexists. split; [reflexivity|].
        assert (Lk : forall a, p = Some a -> fst a <> k).
        { intros a -> Q. destruct (L a) as (E1 & d & E2); [exists (Some k); now left|]. congruence. }
        assert (F : forall y, y <> k -> (forall a, p = Some a -> y <> fst a) -> mset m1 k DNone y = m y).
        { intros y N1 N2. rewrite mset_other by auto. now apply D3. }
        split; [|split; [|split]].
        -- apply (inv_frame true m).
           ++ intros y Hy. apply F.
              ** intros ->. destruct (Lp _ Hy) as (_ & d & Ed). cbn in Ed. congruence.
              ** intros a -> Q. apply (Hp a eq_refl). destruct a as [x z]. cbn in Q. subst x.
                 destruct (L (y, z)) as (E1 & _); [exists (Some k); now left|]. cbn in E1. now subst z.
           ++ intros y q J. apply F.
              ** intros ->. eapply Nk; eauto.
              ** intros a -> Q. destruct (L a) as (E1 & d & E2); [exists (Some k); now left|].
                 pose proof (O2 _ _ (or_intror J)). congruence.
           ++ split; [exact Lp|]. split; [|split].
              ** intros q J. apply O1. now right.
              ** intros q k' J. assert (k' <> k) by (intros ->; eapply Nk; eauto).
                 rewrite (O2 _ _ (or_intror J)). rewrite cnt_cons_other; congruence.
              ** intros a c c' J J'. eapply O3; right; eauto.
        -- intros a E _. rewrite mset_other by auto. auto.
        -- intros y N1 N2. apply F; [intros ->; eapply N1; eauto|]. intros a E. auto.
        -- intros y n q Ey. destruct (Nat.eq_dec y k) as [->|Q]; [left; apply mset_same|]. right. exists n. rewrite F; auto.
           intros a -> ->. destruct (L a) as (E1 & d & E2); [exists (Some k); now left|]. congruence.
      * eexists. split; [reflexivity|].
        assert (F : forall y, y <> k -> mset m k (DCtl (S n) p) y = m y) by (intros; now apply mset_other).
        assert (Hh : forall a, p = Some a -> holding ps a).
        { intros a ->. assert (exists q, In (q, Some k) ps) as (q & J).
          { eapply cnt_some; eauto. }
          pose proof (O2 _ _ (or_intror J)) as Q. rewrite Ek in Q. injection Q as _ Q. subst q. now exists (Some k). }
        split; [|split; [|split]].
        -- split.
           ++ intros a Ha. destruct (Lp a Ha) as (E1 & d & E2). split; auto. exists d. rewrite F; auto. congruence.
           ++ split; [|split].
              ** intros q J. apply O1. now right.
              ** intros q k' J. pose proof (O2 _ _ (or_intror J)) as Q. destruct (Nat.eq_dec k' k) as [->|Nq].
                 --- rewrite mset_same. rewrite Ek in Q. injection Q as _ ->. now rewrite En.
                 --- rewrite F by auto. rewrite Q, cnt_cons_other; congruence.
              ** intros a c c' J J'. eapply O3; right; eauto.
        -- intros a E N. elim N. auto.
        -- intros y N1 _. apply F. intros ->. eapply N1; eauto.
        -- intros y n0 q Ey. right. destruct (Nat.eq_dec y k) as [->|Q].
           ++ rewrite mset_same. assert (q = p) by congruence. subst. eauto.
           ++ rewrite F; eauto.
    + pose proof (O1 p (or_introl eq_refl)) as ->. eexists. split; [reflexivity|]. split; [|split; [discriminate|split; eauto]].
      split; auto. split; [|split].
      * intros q J. apply O1. now right.
      * intros q k J. rewrite (O2 _ _ (or_intror J)). rewrite cnt_cons_other; congruence.
      * intros a c c' J J'. eapply O3; right; eauto.
  - cbn in O. destruct p as [a|]; cbn in O.
    + inversion O as [|? ? Na O']; subst. rewrite in_targets in Na.
      eexists. split; [apply delete_ok, L; exists c; now left|].
      destruct (L a) as (E1 & d & E2); [exists c; now left|].
      split; [|split; [|split]].
      * split; [|exact O']. intros a' Ha. destruct (Lp a' Ha) as (E1' & d' & E2'). split; auto. exists d'.
        rewrite mset_other; auto. intro Q. apply Na. destruct a, a'. cbn in *. subst. auto.
      * intros a' E _. injection E as <-. apply mset_same.
      * intros y _ N. apply mset_other. now apply N.
      * intros y n q Ey. right. exists n. rewrite mset_other; auto. congruence.
    + eexists. split; [reflexivity|]. split; [|split; [discriminate|split; eauto]]. split; auto.
Qed.

(* release *)
Lemma inv_forget m s ps : Inv false m (s :: ps) -> Inv false m ps.
Proof.
  intros [L O]. split.
  - intros a (c & J). apply L. exists c. now right.
  - destruct s as [[a|] c]; cbn in O; [now inversion O|exact O].
Qed.

(* ----- smart pointer objects and the shares they hold ----- *)
Definition share_of (m : mem) (o : nat) : share :=
  match m o with DShared p c => (p, c) | DPtr p => (p, None) | _ => (None, None) end.
Definition shares (m : mem) (os : list nat) : list share := map (share_of m) os.
Definition is_slot (shared : bool) (m : mem) (o : nat) : Prop := m o = slot shared (share_of m o).

Lemma slot_share shared m o s : m o = slot shared s -> (shared = false -> snd s = None) -> share_of m o = s.
Proof. unfold share_of. intros -> N. destruct s as [p c], shared; cbn in *; [reflexivity|]. now rewrite N. Qed.
Lemma is_slot_of shared m o s : m o = slot shared s -> is_slot shared m o.
Proof. unfold is_slot, share_of. intro E. rewrite E. now destruct s as [p c], shared. Qed.
Lemma slot_snd m o : is_slot false m o -> snd (share_of m o) = None.
Proof. unfold is_slot, share_of, slot. destruct (m o) as [| | | | |p|p c|]; cbn; intro E; try discriminate; reflexivity. Qed.
Lemma smart_of_slot shared m o z : is_slot shared m o -> smart_of shared m (o, z) = Ok (share_of m o).
Proof.
  unfold is_slot, smart_of, share_of, slot. cbn [fst]. destruct (m o) as [| | | | |p|p c|], shared; cbn; intro E; try discriminate; reflexivity.
Qed.
Lemma slot_not_none shared s : slot shared s <> DNone.
Proof. now destruct shared. Qed.
Lemma slot_not_data shared s d : slot shared s <> DData d.
Proof. now destruct shared. Qed.
Lemma slot_not_ctl shared s n q : slot shared s <> DCtl n q.
Proof. now destruct shared. Qed.

Record kept_plus (shared : bool) (m : mem) (os : list nat) (extra : list share) : Prop := {
  kp_nodup : NoDup os;
  kp_slots : forall o, In o os -> is_slot shared m o;
  kp_inv : Inv shared m (extra ++ shares m os) }.
Notation kept shared m os := (kept_plus shared m os []).

Lemma shares_frame m m' os : (forall o, In o os -> m' o = m o) -> shares m' os = shares m os.
Proof. intro F. unfold shares. apply map_ext_in. intros o I. unfold share_of. now rewrite F. Qed.
Lemma slots_frame shared m m' os : (forall o, In o os -> m' o = m o) -> (forall o, In o os -> is_slot shared m o) -> forall o, In o os -> is_slot shared m' o.
Proof. intros F A o I. specialize (A o I). unfold is_slot, share_of in *. rewrite F by auto. exact A. Qed.

Lemma pull (a : nat) os : In a os -> NoDup os -> exists r, Permutation os (a :: r) /\ ~ In a r /\ (forall y, In y r -> In y os /\ y <> a) /\ (forall y, In y os -> y = a \/ In y r).
Proof.
  intros I N. apply in_split in I as (l1 & l2 & ->). exists (l1 ++ l2).
  assert (P : Permutation (l1 ++ a :: l2) (a :: l1 ++ l2)) by (symmetry; apply Permutation_middle).
  split; [exact P|]. pose proof (NoDup_remove_2 _ _ _ N) as Na. split; [exact Na|]. split.
  - intros y J. split; [|intros ->; contradiction]. eapply Permutation_in; [symmetry; exact P|now right].
  - intros y J. apply (Permutation_in _ P) in J as [->|J]; auto.
Qed.
Lemma shares_pull m a os r : Permutation os (a :: r) -> Permutation (shares m os) (share_of m a :: shares m r).
Proof. intro P. unfold shares. rewrite (Permutation_map (share_of m) P). reflexivity. Qed.

(* owners and blocks are not smart pointers *)
Lemma inv_not_slot shared m ps o : Inv shared m ps -> is_slot shared m o -> (forall a, holding ps a -> fst a <> o) /\ (forall p, In (p, Some o) ps -> shared = false).
Proof.
  intros [L O] S. unfold is_slot in S. split.
  - intros a Ha <-. destruct (L a Ha) as (_ & d & Ed). rewrite S in Ed. now apply slot_not_data in Ed.
  - intros p I. destruct shared; [|reflexivity]. apply (proj1 (proj2 O)) in I. rewrite S in I. now apply slot_not_ctl in I.
Qed.
Lemma inv_false_frame m m' ps : (forall y, holding ps (y, 0%N) -> m' y = m y) -> Inv false m ps -> Inv false m' ps.
Proof.
  intros F1 [L O]. split; [|exact O].
  intros a Ha. destruct (L a Ha) as (E & d & Ed). split; auto. exists d. rewrite F1; auto. destruct a as [y z]. cbn in *. now subst z.
Qed.
(* overwriting something that is neither an owned object nor a control block *)
Lemma inv_mset shared m ps o d : Inv shared m ps -> (forall x, m o <> DData x) -> (forall n q, m o <> DCtl n q) -> Inv shared (mset m o d) ps.
Proof.
  intros I N1 N2. assert (H1 : forall y, holding ps (y, 0%N) -> mset m o d y = m y).
  { intros y Hy. apply mset_other. intros ->. destruct (iv_live _ _ _ I _ Hy) as (_ & x & Ex). now apply N1 in Ex. }
  destruct shared; [|now apply (inv_false_frame m)].
  apply (inv_frame true m); auto. intros y p J. apply mset_other. intros ->.
  destruct I as [_ (_ & O & _)]. apply O in J. now apply N2 in J.
Qed.
Lemma slot_plain shared m o : is_slot shared m o -> (forall x, m o <> DData x) /\ (forall n q, m o <> DCtl n q).
Proof. unfold is_slot. intro S. rewrite S. split; intros; [apply slot_not_data|apply slot_not_ctl]. Qed.

Lemma kept_mset_free shared m os ex o d : kept_plus shared m os ex -> ~ In o os -> (forall x, m o <> DData x) -> (forall n q, m o <> DCtl n q) ->
  kept_plus shared (mset m o d) os ex.
Proof.
  intros [N S I] No N1 N2. assert (F : forall x, In x os -> mset m o d x = m x) by (intros x J; apply mset_other; intros ->; contradiction).
  split; auto.
  - now apply (slots_frame shared m).
  - rewrite (shares_frame m) by exact F. now apply inv_mset.
Qed.

Lemma kept_take shared m next p os : unborn m next -> kept shared m os ->
  (forall a, p = Some a -> live m a /\ ~ holding (shares m os) a) ->
  exists m' next' c, take shared m next p = (m', next', (p, c)) /\ next <= next' /\ unborn m' next' /\ (forall y, m y <> DNone -> m' y = m y) /\
    kept_plus shared m' os [(p, c)] /\ (shared = false -> c = None).
Proof.
  intros U [N S I] A. destruct (inv_take shared m next p (shares m os) U I A) as (m' & next' & c & E & L & U' & F & I' & X).
  exists m', next', c. split; [exact E|]. split; [exact L|]. split; [exact U'|]. split; [exact F|].
  assert (F' : forall x, In x os -> m' x = m x).
  { intros x J. apply F. specialize (S x J). unfold is_slot in S. rewrite S. apply slot_not_none. }
  split; [|intros ->; cbn in E; congruence]. split; auto.
  - now apply (slots_frame shared m).
  - rewrite (shares_frame m) by exact F'. exact I'.
Qed.

Lemma kept_retain m os x : kept true m os -> In x os ->
  exists m', retain m (share_of m x) = Ok m' /\ kept_plus true m' os [share_of m x] /\
    (forall y, (forall n q, m y <> DCtl n q) -> m' y = m y) /\ (forall y n q, m y = DCtl n q -> exists n', m' y = DCtl n' q).
Proof.
  intros [N S I] J. destruct (share_of m x) as [p c] eqn:Es.
  assert (Jx : In (p, c) (shares m os)) by (unfold shares; apply in_map_iff; eauto).
  destruct (inv_retain m p c _ I Jx) as (m' & E & I' & F & G). exists m'. split; [exact E|].
  assert (F' : forall o, In o os -> m' o = m o) by (intros o K; apply F; apply (proj2 (slot_plain _ _ _ (S o K)))).
  split; [|auto]. split; auto.
  - now apply (slots_frame true m).
  - rewrite (shares_frame m) by exact F'. exact I'.
Qed.

Lemma kept_empty shared m os : kept shared m os -> kept_plus shared m os [(None, None)].
Proof. intros [N S I]. split; auto. now apply inv_empty. Qed.

(* x gives its share away *)
Lemma kept_moved shared m os x : kept shared m os -> In x os ->
  kept_plus shared (mset m x (slot shared (None, None))) os [share_of m x].
Proof.
  intros [N S I] J. destruct (pull x os J N) as (r & P & Nr & R1 & R2). set (m' := mset m x (slot shared (None, None))).
  assert (Ex : share_of m' x = (None, None)) by (apply (slot_share shared); [apply mset_same|auto]).
  assert (F : forall y, y <> x -> m' y = m y) by (intros; now apply mset_other).
  split; auto.
  - intros o K. destruct (Nat.eq_dec o x) as [->|Q]; [eapply is_slot_of, mset_same|].
    specialize (S o K). unfold is_slot, share_of in *. now rewrite F.
  - cbn [app]. apply (inv_perm shared m' ((None, None) :: share_of m x :: shares m r)).
    + rewrite (shares_pull m' x os r P), Ex. rewrite (shares_frame m m' r) by (intros y K; apply F; now apply R1). apply perm_swap.
    + apply inv_empty. eapply inv_perm; [apply shares_pull, P|]. destruct (slot_plain _ _ _ (S x J)). now apply inv_mset.
Qed.

(* a new smart pointer is stored *)
Lemma kept_store shared m os s next : kept_plus shared m os [s] -> unborn m next -> (shared = false -> snd s = None) ->
  kept shared (mset m next (slot shared s)) (next :: os).
Proof.
  intros [N S I] U Ns.
  assert (No : ~ In next os). { intro J. specialize (S _ J). unfold is_slot in S. rewrite (U next) in S by lia. symmetry in S. now apply slot_not_none in S. }
  assert (F : forall o, In o os -> mset m next (slot shared s) o = m o) by (intros o J; apply mset_other; intros ->; contradiction).
  split.
  - now constructor.
  - intros o [<-|J]; [eapply is_slot_of, mset_same|]. now apply (slots_frame shared m _ os F).
  - cbn [app shares map]. fold (shares (mset m next (slot shared s)) os). rewrite (shares_frame m) by exact F.
    rewrite (slot_share shared _ next s) by (auto; apply mset_same). apply inv_mset; auto; intros; rewrite (U next) by lia; discriminate.
Qed.

(* a takes the extra share and its old one goes *)
Lemma kept_reset shared m os s a z : kept_plus shared m os [s] -> In a os -> (shared = false -> snd s = None) ->
  exists m', drop shared (mset m a (slot shared s)) (share_of m a) = Ok m' /\ smart_of shared m (a, z) = Ok (share_of m a) /\
    kept shared m' os /\ m' a = slot shared s /\ (forall o, In o os -> o <> a -> m' o = m o) /\
    (forall y d, m y = DData d ->
       (holding (s :: shares m os) (y, 0%N) /\ ~ holding (shares m' os) (y, 0%N) /\ m' y = DNone) \/
       (m' y = DData d /\ (holding (s :: shares m os) (y, 0%N) -> holding (shares m' os) (y, 0%N)))) /\
    (forall y, ~ In y os -> (forall d, m y <> DData d) -> (forall n p, m y <> DCtl n p) -> m' y = m y) /\
    (forall y n q, m y = DCtl n q -> m' y = DNone \/ exists n', m' y = DCtl n' q).
Proof.
  intros [N S I] J Ns. destruct (pull a os J N) as (r & P & Nr & R1 & R2). destruct (slot_plain _ _ _ (S a J)) as (A1 & A2).
  set (m1 := mset m a (slot shared s)). assert (F1 : forall y, y <> a -> m1 y = m y) by (intros; now apply mset_other).
  assert (E1 : share_of m1 a = s) by (apply (slot_share shared); [apply mset_same|auto]).
  assert (I1 : Inv shared m1 (share_of m a :: s :: shares m r)).
  { apply inv_mset; auto. eapply inv_perm; [|exact I]. cbn [app]. rewrite (shares_pull m a os r P). apply perm_swap. }
  destruct (share_of m a) as [p c] eqn:Ea.
  destruct (inv_drop shared m1 p c _ I1) as (m' & D & I' & D1 & D2 & D3). exists m'. split; [exact D|].
  split; [rewrite <- Ea; apply smart_of_slot; auto|].
  assert (Sl : forall o, In o os -> is_slot shared m1 o).
  { intros o K. destruct (Nat.eq_dec o a) as [->|Q]; [eapply is_slot_of, mset_same|].
    specialize (S o K). unfold is_slot, share_of in *. now rewrite F1. }
  assert (F2 : forall o, In o os -> m' o = m1 o).
  { intros o K. apply D2; [apply (proj2 (slot_plain _ _ _ (Sl o K)))|]. intros b -> _ Q.
    destruct (iv_live _ _ _ I1 b) as (_ & d & Ed); [exists c; now left|]. rewrite <- Q in Ed. now apply (proj1 (slot_plain _ _ _ (Sl o K))) in Ed. }
  assert (Eo : shares m' os = shares m1 os) by (now apply shares_frame).
  assert (Pm : Permutation (shares m1 os) (s :: shares m r)).
  { rewrite (shares_pull m1 a os r P), E1. rewrite (shares_frame m m1 r); [reflexivity|]. intros y K. apply F1. now apply R1. }
  split.
  { split; auto.
    - now apply (slots_frame shared m1).
    - cbn [app]. rewrite Eo. eapply inv_perm; [symmetry; exact Pm|exact I']. }
  split; [rewrite F2 by auto; apply mset_same|]. split; [intros o K Q; rewrite F2 by auto; now apply F1|]. split; [|split].
  - intros y d Ed. assert (Ya : y <> a) by (intros ->; now apply A1 in Ed).
    assert (Hh : forall b, holding (s :: shares m os) b <-> p = Some b \/ holding (shares m' os) b).
    { intros b. rewrite Eo. rewrite (holding_perm _ _ b Pm). rewrite (holding_perm (s :: shares m os) ((p, c) :: s :: shares m r) b).
      - unfold holding. split.
        + intros (c0 & [E|K]); [left; congruence|right; eauto].
        + intros [->|(c0 & K)]; [exists c; now left|exists c0; now right].
      - rewrite (shares_pull m a os r P), Ea. apply perm_swap. }
    assert (Hd : p = Some (y, 0%N) /\ ~ holding (shares m' os) (y, 0%N) \/ (p = Some (y, 0%N) -> holding (shares m' os) (y, 0%N))).
    { destruct (in_dec (fun x y : addr => ltac:(decide equality; [apply N.eq_dec|apply Nat.eq_dec]) : {x = y} + {x <> y}) (y, 0%N) (targets (shares m' os))) as [K|K]; rewrite in_targets in K; [auto|].
      destruct p as [b|]; [|right; discriminate].
      destruct ((fun x y : addr => ltac:(decide equality; [apply N.eq_dec|apply Nat.eq_dec]) : {x = y} + {x <> y}) b (y, 0%N)) as [->|Q]; [auto|right; congruence]. }
    destruct Hd as [(-> & K)|K].
    + left. split; [apply Hh; auto|]. split; [exact K|]. apply (D1 (y, 0%N) eq_refl). rewrite <- (holding_perm _ _ _ Pm), <- Eo. exact K.
    + right. split.
      * rewrite D2; [rewrite F1; auto|intros n q; rewrite F1 by auto; congruence|].
        intros b -> Nb Q. destruct (iv_live _ _ _ I1 b) as (Z & _); [exists c; now left|]. destruct b as [y' z']. cbn in *. subst y' z'.
        apply Nb. rewrite <- (holding_perm _ _ _ Pm), <- Eo. now apply K.
      * intro Q. apply Hh in Q as [Q|Q]; auto.
  - intros y Ny Nd Nc. assert (y <> a) by (intros ->; contradiction). rewrite D2; [now apply F1|intros n q; rewrite F1 by auto; apply Nc|].
    intros b -> _ ->. destruct (iv_live _ _ _ I1 b) as (_ & d & Ed); [exists c; now left|]. rewrite F1 in Ed by auto. now apply Nd in Ed.
  - intros y n q Ey. apply (D3 y n q). rewrite F1; auto. intros ->. now apply A2 in Ey.
Qed.

(* a lets its share go and is gone itself *)
Lemma kept_destroy shared m os a : kept shared m os -> In a os ->
  exists m' os', smart_destroy shared m a = Ok m' /\ os' = filter (fun x => negb (Nat.eqb x a)) os /\
    kept shared m' os' /\ m' a = DNone /\ (forall o, In o os' -> m' o = m o) /\
    (forall y d, m y = DData d ->
       (holding (shares m os) (y, 0%N) /\ ~ holding (shares m' os') (y, 0%N) /\ m' y = DNone) \/
       (m' y = DData d /\ (holding (shares m os) (y, 0%N) -> holding (shares m' os') (y, 0%N)))) /\
    (forall y, ~ In y os -> (forall d, m y <> DData d) -> (forall n p, m y <> DCtl n p) -> m' y = m y) /\
    (forall y n q, m y = DCtl n q -> m' y = DNone \/ exists n', m' y = DCtl n' q).
Proof.
  intros [N S I] J. destruct (pull a os J N) as (r & P & Nr & R1 & R2). destruct (slot_plain _ _ _ (S a J)) as (A1 & A2).
  set (os' := filter (fun x => negb (Nat.eqb x a)) os).
  assert (No : NoDup os') by (now apply NoDup_filter).
  assert (Io : forall y, In y os' <-> In y os /\ y <> a).
  { intro y. unfold os'. rewrite filter_In. destruct (Nat.eqb_spec y a); cbn; intuition congruence. }
  assert (Pr : Permutation os' r).
  { apply NoDup_Permutation; auto.
    - apply (Permutation_NoDup P) in N. now inversion N.
    - intro y. rewrite Io. split; [intros (K & Q); destruct (R2 y K); [contradiction|auto]|auto]. }
  set (m1 := mset m a DNone). assert (F1 : forall y, y <> a -> m1 y = m y) by (intros; now apply mset_other).
  assert (I1 : Inv shared m1 (share_of m a :: shares m r)).
  { apply inv_mset; auto. eapply inv_perm; [|exact I]. cbn [app]. apply (shares_pull m a os r P). }
  destruct (share_of m a) as [p c] eqn:Ea.
  destruct (inv_drop shared m1 p c _ I1) as (m' & D & I' & D1 & D2 & D3). exists m', os'.
  split; [unfold smart_destroy; rewrite (smart_of_slot shared m a 0%N) by auto; cbn [bind]; rewrite Ea; exact D|]. split; [reflexivity|].
  assert (Sl : forall o, In o os' -> is_slot shared m1 o).
  { intros o (K & Q)%Io. specialize (S o K). unfold is_slot, share_of in *. now rewrite F1. }
  assert (F2 : forall o, In o os' -> m' o = m1 o).
  { intros o K. apply D2; [apply (proj2 (slot_plain _ _ _ (Sl o K)))|]. intros b -> _ Q.
    destruct (iv_live _ _ _ I1 b) as (_ & d & Ed); [exists c; now left|]. rewrite <- Q in Ed. now apply (proj1 (slot_plain _ _ _ (Sl o K))) in Ed. }
  assert (F3 : forall o, In o os' -> m' o = m o) by (intros o K; rewrite F2 by auto; apply F1; now apply Io).
  assert (Pm : Permutation (shares m' os') (shares m r)).
  { rewrite (shares_frame m) by exact F3. unfold shares. now apply Permutation_map. }
  split.
  { split; auto.
    - now apply (slots_frame shared m1).
    - cbn [app]. eapply inv_perm; [symmetry; exact Pm|exact I']. }
  split.
  { rewrite D2; [apply mset_same|unfold m1; rewrite mset_same; discriminate|]. intros b -> _ Q.
    destruct (iv_live _ _ _ I1 b) as (_ & d & Ed); [exists c; now left|]. rewrite <- Q in Ed. unfold m1 in Ed. rewrite mset_same in Ed. discriminate. }
  split; [exact F3|]. split; [|split].
  - intros y d Ed. assert (Ya : y <> a) by (intros ->; now apply A1 in Ed).
    assert (Hh : forall b, holding (shares m os) b <-> p = Some b \/ holding (shares m' os') b).
    { intros b. rewrite (holding_perm _ _ b Pm). rewrite (holding_perm (shares m os) ((p, c) :: shares m r) b).
      - unfold holding. split.
        + intros (c0 & [E|K]); [left; congruence|right; eauto].
        + intros [->|(c0 & K)]; [exists c; now left|exists c0; now right].
      - rewrite (shares_pull m a os r P), Ea. reflexivity. }
    assert (Hd : p = Some (y, 0%N) /\ ~ holding (shares m' os') (y, 0%N) \/ (p = Some (y, 0%N) -> holding (shares m' os') (y, 0%N))).
    { destruct (in_dec (fun x y : addr => ltac:(decide equality; [apply N.eq_dec|apply Nat.eq_dec]) : {x = y} + {x <> y}) (y, 0%N) (targets (shares m' os'))) as [K|K]; rewrite in_targets in K; [auto|].
      destruct p as [b|]; [|right; discriminate].
      destruct ((fun x y : addr => ltac:(decide equality; [apply N.eq_dec|apply Nat.eq_dec]) : {x = y} + {x <> y}) b (y, 0%N)) as [->|Q]; [auto|right; congruence]. }
    destruct Hd as [(-> & K)|K].
    + left. split; [apply Hh; auto|]. split; [exact K|]. apply (D1 (y, 0%N) eq_refl). rewrite <- (holding_perm _ _ _ Pm). exact K.
    + right. split.
      * rewrite D2; [rewrite F1; auto|intros n q; rewrite F1 by auto; congruence|].
        intros b -> Nb Q. destruct (iv_live _ _ _ I1 b) as (Z & _); [exists c; now left|]. destruct b as [y' z']. cbn in *. subst y' z'.
        apply Nb. rewrite <- (holding_perm _ _ _ Pm). now apply K.
      * intro Q. apply Hh in Q as [Q|Q]; auto.
  - intros y Ny Nd Nc. assert (y <> a) by (intros ->; contradiction). rewrite D2; [now apply F1|intros n q; rewrite F1 by auto; apply Nc|].
    intros b -> _ ->. destruct (iv_live _ _ _ I1 b) as (_ & d & Ed); [exists c; now left|]. rewrite F1 in Ed by auto. now apply Nd in Ed.
  - intros y n q Ey. apply (D3 y n q). rewrite F1; auto. intros ->. now apply A2 in Ey.
Qed.

(* a gives its share up without dropping it *)
Lemma kept_release m os a : kept false m os -> In a os -> kept false (mset m a (slot false (None, None))) os.
Proof.
  intros K J. destruct (kept_moved false m os a K J) as [N S I]. split; auto. cbn [app] in *. now apply inv_forget in I.
Qed.

(* ----- the specification's view ----- *)
Lemma smart_at_slot shared m o : (exists p, smart_at shared m o p) <-> is_slot shared m o.
Proof.
  unfold smart_at, is_slot, share_of. destruct shared.
  - split; [intros (p & c & ->); reflexivity|]. destruct (m o) as [| | | | |p|p c|]; cbn; intro E; try discriminate. eauto.
  - split; [intros (p & ->); reflexivity|]. destruct (m o) as [| | | | |p|p c|]; cbn; intro E; try discriminate. eauto.
Qed.
Lemma smart_at_share shared m o p : is_slot shared m o -> (smart_at shared m o p <-> fst (share_of m o) = p).
Proof.
  unfold smart_at, is_slot, share_of. destruct shared, (m o) as [| | | | |q|q c|]; cbn; intro E; try discriminate.
  - split; [intros (c' & Q); congruence|intros ->; eauto].
  - split; congruence.
Qed.
Lemma held_share shared m o : is_slot shared m o -> held m o = fst (share_of m o).
Proof. unfold held, share_of, is_slot, slot. destruct shared, (m o) as [| | | | |q|q c|]; cbn; intro E; try discriminate; reflexivity. Qed.
Lemma owned_holding shared m os a : (forall o, In o os -> is_slot shared m o) -> (owned shared m os a <-> holding (shares m os) a).
Proof.
  intro S. unfold owned, holding, shares. split.
  - intros (o & I & A). apply smart_at_share in A; auto. exists (snd (share_of m o)). apply in_map_iff. exists o. split; auto.
    rewrite <- A. now destruct (share_of m o).
  - intros (c & I). apply in_map_iff in I as (o & E & I). exists o. split; auto. apply smart_at_share; auto. now rewrite E.
Qed.
Lemma cnt_owners m os k : (forall o, In o os -> is_slot true m o) -> cnt k (shares m os) = length (filter (in_block m k) os).
Proof.
  intro S. unfold cnt, shares. induction os as [|o os IH]; [reflexivity|]. cbn [map filter].
  assert (E : in_block m k o = match snd (share_of m o) with Some k' => Nat.eqb k' k | None => false end).
  { specialize (S o (or_introl eq_refl)). unfold is_slot in S. unfold in_block, share_of in *.
    destruct (m o) as [| | | | |q|q c|]; cbn in *; try discriminate. reflexivity. }
  rewrite E. destruct (match snd (share_of m o) with Some k' => _ | None => _ end); cbn [length]; [f_equal|]; apply IH; intros; apply S; now right.
Qed.
Lemma managed_kept shared m os : managed shared m os <-> kept shared m os.
Proof.
  split.
  - intros [N A L O]. assert (S : forall o, In o os -> is_slot shared m o) by (intros o I; apply smart_at_slot; auto). split; auto.
    cbn [app]. split.
    + intros a Ha. apply L. now apply owned_holding.
    + destruct shared.
      * assert (G : forall p c, In (p, c) (shares m os) -> exists o, In o os /\ m o = DShared p c).
        { intros p c I. apply in_map_iff in I as (o & E & I). exists o. split; auto. pose proof (S o I) as Q. unfold is_slot in Q. rewrite Q, E. reflexivity. }
        destruct O as (O1 & O2 & O3). split; [|split].
        -- intros p I. apply G in I as (o & I & E). eauto.
        -- intros p k I. apply G in I as (o & I & E). rewrite cnt_owners by auto. eauto.
        -- intros a c c' I I'. apply G in I as (o & I & E). apply G in I' as (o' & I' & E'). eauto.
      * clear A L. induction os as [|o os IH]; [constructor|]. inversion N as [|? ? N1 N2]; subst.
        assert (IH' : NoDup (targets (shares m os))).
        { apply IH; auto; [intros o1 o2 a I1 I2; apply O; now right|intros; apply S; now right]. }
        cbn [shares map targets flat_map]. fold (shares m os). fold (targets (shares m os)).
        destruct (fst (share_of m o)) as [a|] eqn:E; [|exact IH']. cbn. constructor; auto. rewrite in_targets. intro Ha.
        apply (owned_holding false) in Ha as (o' & I' & E'); [|intros; apply S; now right].
        assert (o = o'); [|congruence]. apply (O o o' a); auto; [now left|now right|].
        apply (smart_at_share false m o (Some a)); auto. apply S. now left.
  - intros [N S I]. cbn [app] in I. destruct I as [L O]. split; auto.
    + intros o I. apply smart_at_slot. auto.
    + intros a Ha. apply L. now apply owned_holding in Ha.
    + destruct shared.
      * assert (G : forall o p c, In o os -> m o = DShared p c -> In (p, c) (shares m os)).
        { intros o p c I E. apply in_map_iff. exists o. split; auto. unfold share_of. now rewrite E. }
        destruct O as (O1 & O2 & O3). split; [|split].
        -- intros o p I E. eauto.
        -- intros o p k I E. rewrite <- cnt_owners by auto. eauto.
        -- intros o o' a c c' I I' E E'. eauto.
      * clear L. induction os as [|x os IH]; [contradiction|]. inversion N as [|? ? N1 N2]; subst.
        cbn [shares map targets flat_map] in O. fold (shares m os) in O. fold (targets (shares m os)) in O.
        assert (Ox : NoDup (targets (shares m os))) by (destruct (fst (share_of m x)); cbn in O; [now inversion O|exact O]).
        assert (IH' : forall o o' a, In o os -> In o' os -> m o = DPtr (Some a) -> m o' = DPtr (Some a) -> o = o').
        { apply IH; auto. intros; apply S; now right. }
        assert (X : forall o' a, In o' os -> m x = DPtr (Some a) -> m o' = DPtr (Some a) -> False).
        { intros o' a I' E E'. assert (Q : fst (share_of m x) = Some a) by (unfold share_of; now rewrite E).
          rewrite Q in O. cbn in O. inversion O as [|? ? Na _]; subst. apply Na. apply in_targets. exists None.
          apply in_map_iff. exists o'. split; auto. unfold share_of. now rewrite E'. }
        intros o o' a [<-|I] [<-|I'] E E'; auto; [elim (X o' a)|elim (X o a)|eapply IH']; eauto.
Qed.
