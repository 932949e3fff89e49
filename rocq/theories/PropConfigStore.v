(* PropConfigStore.v - C89: names and links of a configuration. *)
From Coq Require String. Import String.StringSyntax.
From Coq Require Import Permutation.
From Verif Require Import Base Dec ModelConfig SpecConfig ModelConfigStore SpecConfigStore PropConfig PropNode ProofConfigStore.
Local Open Scope outcome_scope.

Section History.
  Context {V M : Type} (L : layer V M).
  Implicit Types (h : list (cstep V)) (c : cfg V M) (s : cstep V).

  (* what the user does: set(k, v) and link(k, target), on whole names *)
  Definition do_step (f : nat) (c : cfg V M) (s : cstep V) : outcome (cfg V M) :=
    match s with SetKey k v => cset L f c [k] v | LinkKey k t => clink L f c [k] [t] end.
  Definition do_steps (f : nat) (c : cfg V M) (h : list (cstep V)) : outcome (cfg V M) :=
    fold_left (fun acc s => do x <- acc; do_step f x s) h (Ok c).

  Definition Lk (h : list (cstep V)) (l t : str) : Prop := In (LinkKey l t) h.
  Definition open_ (h : list (cstep V)) (k : str) : Prop := ~ In k (map defines h).

  Lemma once (h : list (cstep V)) a b : NoDup (map defines h) -> In a h -> In b h -> defines a = defines b -> a = b.
  Proof.
    induction h as [|s h IH]; intros ND A B E; [contradiction|]. inversion ND; subst. destruct A as [->|A], B as [->|B]; auto; exfalso.
    - apply H1. rewrite E. now apply in_map.
    - apply H1. rewrite <- E. now apply in_map.
  Qed.
  Lemma Lk_fun h : NoDup (map defines h) -> functional (Lk h).
  Proof. intros ND x a b A B. pose proof (once h _ _ ND A B eq_refl) as E. now injection E. Qed.
  Lemma resolves_defined h k v : resolves h k v -> In k (map defines h).
  Proof. intros [k' v' I0|k' t v' I0 _]; apply (in_map (@defines V)) in I0; exact I0. Qed.
  Lemma resolves_fun h : NoDup (map defines h) -> forall k v w, resolves h k v -> resolves h k w -> v = w.
  Proof.
    intros ND k v w R. revert w. induction R as [k v A|k t v A R IH]; intros w R2; inversion R2 as [k' w' B|k' t' w' B R3]; subst.
    - pose proof (once h _ _ ND A B eq_refl) as E. now injection E.
    - pose proof (once h _ _ ND A B eq_refl) as E. discriminate.
    - pose proof (once h _ _ ND A B eq_refl) as E. discriminate.
    - pose proof (once h _ _ ND A B eq_refl) as E. injection E as ->. auto.
  Qed.
  Lemma resolves_along h x y v : rch (Lk h) x y -> resolves h y v -> resolves h x v.
  Proof. induction 1; auto. intro R. eapply res_link; eauto. Qed.
  Lemma resolves_forward h x y v : NoDup (map defines h) -> rch (Lk h) x y -> resolves h x v -> resolves h y v.
  Proof.
    intros ND. induction 1 as [|x y z A B IH]; auto. intro R. apply IH. inversion R as [k' w' C|k' t' w' C R3]; subst.
    - pose proof (once h _ _ ND A C eq_refl) as E. discriminate.
    - pose proof (once h _ _ ND A C eq_refl) as E. injection E as ->. exact R3.
  Qed.
  Lemma resolves_mono h s k v : resolves h k v -> resolves (h ++ [s]) k v.
  Proof. induction 1; [apply res_set|eapply res_link; eauto]; apply in_app_iff; auto. Qed.
  Lemma Lk_snoc h s l t : Lk (h ++ [s]) l t <-> Lk h l t \/ s = LinkKey l t.
  Proof. unfold Lk. rewrite in_app_iff. cbn. intuition congruence. Qed.
  Lemma rch_link h l t x k : k <> l -> rch (Lk (h ++ [LinkKey l t])) x k -> rch (Lk h) x k \/ (rch (Lk h) x l /\ rch (Lk h) t k).
  Proof.
    intros N. induction 1 as [x|x y k A B IH]; [left; constructor|]. specialize (IH N). apply Lk_snoc in A as [A|A].
    - destruct IH as [R|(R1 & R2)]; [left|right]; [eapply rch1; eauto|]. split; auto. eapply rch1; eauto.
    - injection A as -> ->. right. destruct IH as [R|(R1 & R2)]; (split; [constructor|auto]).
  Qed.
  Lemma rch_set h k0 v0 x k : rch (Lk (h ++ [SetKey k0 v0])) x k <-> rch (Lk h) x k.
  Proof.
    split; apply rch_mono; intros a b A.
    - apply Lk_snoc in A as [A|A]; [exact A|discriminate].
    - apply Lk_snoc. now left.
  Qed.

  Lemma no_cycle (E : str -> str -> Prop) : functional E -> forall x k, rch E x k -> (forall y, ~ E k y) -> ~ exists y, E x y /\ rch E y x.
  Proof.
    intros F x k R T. induction R as [x|x y k A B IH]; intros (y' & A' & R'); [exact (T _ A')|].
    rewrite (F _ _ _ A' A) in R'. apply (IH T). inversion R' as [z|z w u A2 R2]; subst.
    - exists x. split; auto.
    - exists w. split; auto. eapply rch_snoc; eauto.
  Qed.
  Lemma ht_bound (E : str -> str -> Prop) src k : functional E -> (forall x y, E x y -> In x src) -> (forall y, ~ E k y) ->
    ht E (S (length src)) k.
  Proof.
    intros F Is T.
    enough (G : forall j x vis, rch E x k -> NoDup vis -> incl vis src -> (forall v, In v vis -> rch E x v) -> length src - length vis < j -> ht E j x).
    { apply (G _ k []); [constructor|constructor|intros ? []|intros ? []|cbn; lia]. }
    induction j as [|j IH]; intros x vis R ND Ic Rv Lt; [lia|]. constructor. intros l A.
    assert (Nl : ~ In l vis).
    { intro Hv. apply (no_cycle E F l k (rch1 _ _ _ _ A R) T). exists x. split; auto. }
    assert (ND' : NoDup (l :: vis)) by now constructor.
    assert (Ic' : incl (l :: vis) src) by (intros z [<-|Hz]; [eapply Is; eauto|auto]).
    pose proof (NoDup_incl_length ND' Ic') as Len. cbn in Len.
    apply (IH l (l :: vis)); auto.
    - eapply rch1; eauto.
    - intros v [<-|Hv]; [constructor|]. eapply rch1; eauto.
    - cbn [length]. lia.
  Qed.

  (* ---- the invariant ---- *)
  Record inv (h : list (cstep V)) (m : M) (c : cfg V M) : Prop := Inv {
    i_fine : fine c;
    i_mem : cmem c = m;
    i_keys : forall k v, afind k (ckeys c) = Some v <-> resolves h k v;
    i_pend : forall l t, P c l t -> (exists y, Lk h l y /\ rch (Lk h) y t) /\ (forall v, ~ resolves h t v);
    i_fun : functional (P c);
    i_all : forall k x, open_ h k -> rch (Lk h) x k -> rch (P c) x k
  }.

  Lemma P_source h m c l t : inv h m c -> P c l t -> In l (map defines h).
  Proof. intros I0 H. destruct (i_pend h m c I0 l t H) as ((y & A & _) & _). apply (in_map (@defines V)) in A. exact A. Qed.
  Lemma P_rch h m c x k : inv h m c -> rch (P c) x k -> rch (Lk h) x k.
  Proof.
    intros I0. induction 1 as [|x y k A B IH]; [constructor|]. destruct (i_pend h m c I0 x y A) as ((z & A1 & R) & _).
    eapply rch1; [exact A1|]. eapply rch_trans; eauto.
  Qed.

  (* a step that gives the name k0 the value w at once *)
  Lemma inv_put h m c f s k0 w : inv h m c -> NoDup (map defines (h ++ [s])) -> defines s = k0 -> length h < f ->
    (forall x u, resolves (h ++ [s]) x u <-> resolves h x u \/ (rch (Lk h) x k0 /\ u = w)) ->
    (forall k x, open_ (h ++ [s]) k -> rch (Lk (h ++ [s])) x k -> rch (Lk h) x k) ->
    exists c', cset L f c [k0] w = Ok c' /\ inv (h ++ [s]) m c'.
  Proof.
    intros I0 ND Ds Lf Rs Rl. rewrite map_app in ND. cbn [map] in ND.
    assert (Op : open_ h k0). { intro H. apply NoDup_remove_2 in ND. apply ND. rewrite app_nil_r, Ds. exact H. }
    assert (NDh : NoDup (map defines h)). { apply NoDup_remove_1 in ND. now rewrite app_nil_r in ND. }
    assert (Term : forall y, ~ P c k0 y) by (intros y H; apply (P_source h m) in H; auto).
    assert (Eq : forall x, rch (P c) x k0 <-> rch (Lk h) x k0).
    { intro x. split; [now apply (P_rch h m)|]. now apply (i_all h m c I0). }
    destruct (cset_ok L (S (length h)) f k0 c w) as (c' & E & Fi & Mm & K & Pp); [lia|exact (i_fine _ _ _ I0)|exact (i_fun _ _ _ I0)| | |].
    - rewrite <- (map_length defines h). apply ht_bound; auto. exact (i_fun _ _ _ I0). intros x y H. eapply P_source; eauto.
    - intros x R. destruct (afind x (ckeys c)) as [u|] eqn:Eu; auto. exfalso. apply (i_keys _ _ _ I0) in Eu.
      apply Eq in R. apply Op. eapply resolves_defined, resolves_forward; eauto.
    - exists c'. split; [exact E|]. split.
      + exact Fi.
      + rewrite Mm. exact (i_mem _ _ _ I0).
      + intros x u. rewrite K, Rs, (i_keys _ _ _ I0), Eq. tauto.
      + intros l t H. apply Pp in H as (H & Nt). destruct (i_pend _ _ _ I0 l t H) as ((y & A & R) & Nr). split.
        * exists y. split; [apply Lk_snoc; now left|]. eapply rch_mono; [|exact R]. intros. apply Lk_snoc. now left.
        * intros u Hu. apply Rs in Hu as [Hu|(Hu & _)]; [exact (Nr u Hu)|]. apply Nt, Eq, Hu.
      + intros x a b A B. apply Pp in A as (A & _). apply Pp in B as (B & _). exact (i_fun _ _ _ I0 x a b A B).
      + intros k x Ok_ R. pose proof (Rl k x Ok_ R) as R0.
        assert (Opk : open_ h k) by (intro H; apply Ok_; rewrite map_app; apply in_app_iff; now left).
        assert (Nk : k <> k0) by (intros ->; apply Ok_; rewrite map_app; apply in_app_iff; right; cbn; now left).
        apply (i_all _ _ _ I0 k x Opk) in R0. clear R. induction R0 as [x|x y k A B IH]; [constructor|].
        eapply rch1; [|now apply IH]. apply Pp. split; auto. intro R1.
        destruct (rch_line _ y k0 k (i_fun _ _ _ I0) R1 B) as [R2|R2].
        * inversion R2; subst; [congruence|eapply Term; eauto].
        * inversion R2; subst; [congruence|]. apply Opk. eapply P_source; eauto.
  Qed.

  Lemma relink_spec n l t : flat n -> exists n', relink (node_add n [l] [t]) [l] [t] = Ok n' /\ flat n' /\
    forall x y, pend n' x y <-> (pend n x y \/ (y = t /\ (x = l \/ pend n x l))) /\ y <> l.
  Proof.
    intro Fl. pose proof (flat_add n l t Fl) as Fl1. unfold relink. destruct (node_has (node_add n [l] [t]) [l]) eqn:Hh.
    - destruct (flat_subtree (node_add n [l] [t]) l Fl1) as (ls & Es & ND & Il). rewrite Es. cbn [bind]. eexists. split; [reflexivity|].
      assert (G : forall ls n1, flat n1 -> flat (fold_left (fun a (sub : path * path) => node_add a (snd sub) ([t] ++ fst sub)) (map (fun l => ([] : path, [l])) ls) n1) /\
        forall x y, pend (fold_left (fun a (sub : path * path) => node_add a (snd sub) ([t] ++ fst sub)) (map (fun l => ([] : path, [l])) ls) n1) x y <-> pend n1 x y \/ (y = t /\ In x ls)).
      { clear. induction ls as [|z ls IH]; intros n1 F1; cbn [map fold_left fst snd app].
        - split; auto. intros x y. cbn. tauto.
        - destruct (IH (node_add n1 [z] [t]) (flat_add _ _ _ F1)) as (A & B). split; [exact A|]. intros x y. rewrite B, pend_add. cbn. intuition congruence. }
      destruct (G ls (node_get (node_add n [l] [t]) [t]) (flat_get _ _ Fl1)) as (A & B). split; [apply flat_erase, A|].
      intros x y. rewrite pend_erase. match goal with |- pend ?t1 x y /\ _ <-> _ => assert (Bx : pend t1 x y <-> pend (node_get (node_add n [l] [t]) [t]) x y \/ y = t /\ In x ls) by exact (B x y) end.
      rewrite Bx, pend_get, pend_add, Il, pend_add. intuition congruence.
    - eexists. split; [reflexivity|]. split; [exact Fl1|].
      assert (Np : forall x, ~ pend (node_add n [l] [t]) x l) by (intros x H; apply pr_has in H; unfold has in H; congruence).
      intros x y. rewrite pend_add. split.
      + intro H. split; [tauto|]. intros ->. apply (Np x). apply pend_add. exact H.
      + intros ([H|(-> & [->|H])] & N); auto. exfalso. apply (Np x). apply pend_add. now left.
  Qed.

  Lemma inv_step h m c f s : inv h m c -> NoDup (map defines (h ++ [s])) -> length h < f ->
    exists c', do_step f c s = Ok c' /\ inv (h ++ [s]) m c'.
  Proof.
    intros I0 ND Lf. pose proof ND as ND0. rewrite map_app in ND0. cbn [map] in ND0.
    assert (Op : open_ h (defines s)). { intro H. apply NoDup_remove_2 in ND0. apply ND0. now rewrite app_nil_r. }
    assert (NDh : NoDup (map defines h)). { apply NoDup_remove_1 in ND0. now rewrite app_nil_r in ND0. }
    destruct s as [k0 v0|l t]; cbn [do_step defines] in *.
    - apply inv_put; auto.
      + intros x u. split.
        * induction 1 as [x u A|x y u A R IH]; apply in_app_iff in A as [A|[A|[]]].
          -- left. now apply res_set.
          -- injection A as -> ->. right. split; [constructor|auto].
          -- destruct IH as [IH|(IH & ->)]; [left; eapply res_link; eauto|right]. split; auto. eapply rch1; eauto.
          -- discriminate.
        * intros [R|(R & ->)]; [now apply resolves_mono|]. eapply resolves_along; [apply rch_set; exact R|]. apply res_set. apply in_app_iff. cbn; auto.
      + intros k x _ R. now apply rch_set in R.
    - unfold clink. destruct (afind t (ckeys c)) as [w|] eqn:Et.
      + cbn [bind]. apply (i_keys _ _ _ I0) in Et. destruct c as [ks ls mm]. cbn [ckeys clinks cmem] in *.
        apply inv_put; auto.
        * intros x u. split.
          -- induction 1 as [x u A|x y u A R IH]; apply in_app_iff in A as [A|[A|[]]].
             ++ left. now apply res_set.
             ++ discriminate.
             ++ destruct IH as [IH|(IH & ->)]; [left; eapply res_link; eauto|right]. split; auto. eapply rch1; eauto.
             ++ injection A as -> ->. right. split; [constructor|]. destruct IH as [IH|(_ & ->)]; auto. eapply resolves_fun; eauto.
          -- intros [R|(R & ->)]; [now apply resolves_mono|]. eapply resolves_along; [eapply rch_mono; [|exact R]; intros; apply Lk_snoc; now left|].
             eapply res_link; [apply in_app_iff; right; cbn; now left|]. now apply resolves_mono.
        * intros k x Ok_ R. assert (N : k <> l) by (intros ->; apply Ok_; rewrite map_app; apply in_app_iff; right; cbn; now left).
          apply rch_link in R as [R|(R1 & R2)]; auto. exfalso. apply Ok_. rewrite map_app. apply in_app_iff. left.
          eapply resolves_defined, resolves_forward; eauto.
      + destruct (relink_spec (clinks c) l t (proj1 (i_fine _ _ _ I0))) as (n' & E & Fl & Pn). rewrite E. cbn [bind]. eexists. split; [reflexivity|].
        assert (Nt : forall u, ~ resolves h t u). { intros u R. apply (i_keys _ _ _ I0) in R. congruence. }
        assert (Rs : forall x u, resolves (h ++ [LinkKey l t]) x u <-> resolves h x u).
        { intros x u. split; [|apply resolves_mono]. induction 1 as [x u A|x y u A R IH]; apply in_app_iff in A as [A|[A|[]]].
          - now apply res_set.
          - discriminate.
          - eapply res_link; eauto.
          - injection A as -> ->. exfalso. exact (Nt u IH). }
        assert (Pp : forall x y, P (Cfg (ckeys c) n' (cmem c)) x y <-> (P c x y \/ (y = t /\ (x = l \/ P c x l))) /\ y <> l) by exact Pn.
        assert (Term : forall y, ~ P c l y) by (intros y H; apply (P_source h m) in H; auto).
        assert (Lm : forall a b, Lk h a b -> Lk (h ++ [LinkKey l t]) a b) by (intros; apply Lk_snoc; now left).
        assert (Keep : forall x k, k <> l -> rch (P c) x k -> rch (P (Cfg (ckeys c) n' (cmem c))) x k).
        { intros x k N R. induction R as [x|x y k A B IH]; [constructor|]. eapply rch1; [|now apply IH]. apply Pp. split; [now left|].
          intros ->. inversion B; subst; [congruence|eapply Term; eauto]. }
        split; cbn [ckeys cmem clinks].
        * split; [exact Fl|exact (proj2 (i_fine _ _ _ I0))].
        * exact (i_mem _ _ _ I0).
        * intros k u. rewrite Rs. apply (i_keys _ _ _ I0).
        * intros x y H. apply Pp in H as ([H|(-> & [->|H])] & N).
          -- destruct (i_pend _ _ _ I0 x y H) as ((z & A & R) & Nr). split.
             ++ exists z. split; auto. eapply rch_mono; eauto.
             ++ intros u Hu. apply Rs in Hu. exact (Nr u Hu).
          -- split; [|intros u Hu; apply Rs in Hu; exact (Nt u Hu)]. exists t. split; [apply Lk_snoc; now right|constructor].
          -- split; [|intros u Hu; apply Rs in Hu; exact (Nt u Hu)]. destruct (i_pend _ _ _ I0 x l H) as ((z & A & R) & _).
             exists z. split; auto. eapply rch_snoc; [eapply rch_mono; eauto|]. apply Lk_snoc. now right.
        * intros x a b A B. apply Pp in A as (A & Na), B as (B & Nb).
          destruct A as [A|(-> & A)], B as [B|(-> & B)]; auto.
          -- exact (i_fun _ _ _ I0 x a b A B).
          -- destruct B as [->|B]; [exfalso; eapply Term; eauto|]. exfalso. apply Na. exact (i_fun _ _ _ I0 x a l A B).
          -- destruct A as [->|A]; [exfalso; eapply Term; eauto|]. exfalso. apply Nb. exact (i_fun _ _ _ I0 x b l B A).
        * intros k x Ok_ R. assert (N : k <> l) by (intros ->; apply Ok_; rewrite map_app; apply in_app_iff; right; cbn; now left).
          assert (Opk : open_ h k) by (intro H; apply Ok_; rewrite map_app; apply in_app_iff; now left).
          apply rch_link in R as [R|(R1 & R2)]; auto.
          -- apply Keep; auto. exact (i_all _ _ _ I0 k x Opk R).
          -- assert (Ntl : t <> l).
             { intros ->. inversion R2 as [|x' y' k' A' B']; subst; [congruence|]. apply Op. apply (in_map (@defines V)) in A'. exact A'. }
             apply (i_all _ _ _ I0 l x Op) in R1. apply (rch_trans _ x t k).
             ++ clear R2. remember l as z eqn:Ez in R1. induction R1 as [x|x y z A B IH]; subst.
                ** eapply rch1; [|constructor]. apply Pp. split; auto.
                ** inversion B as [|x' y' k' A' B']; subst.
                   --- eapply rch1; [|constructor]. apply Pp. split; auto.
                   --- eapply rch1; [|now apply IH]. apply Pp. split; auto. intros ->. eapply Term; eauto.
             ++ apply Keep; auto. exact (i_all _ _ _ I0 k t Opk R2).
  Qed.

  Lemma inv_init m : inv [] m (cempty m).
  Proof.
    split; cbn.
    - split; [apply flat_empty|constructor].
    - reflexivity.
    - intros k v. split; [discriminate|]. intros [? ? []|? ? ? [] _].
    - intros l t [].
    - intros x a b [].
    - intros k x _ R. inversion R as [|? ? ? []]; constructor.
  Qed.
  Lemma inv_run f m : forall h, NoDup (map defines h) -> length h <= f -> exists c, do_steps f (cempty m) h = Ok c /\ inv h m c.
  Proof.
    induction h as [|s h IH] using rev_ind; intros ND Lf; [exists (cempty m); split; [reflexivity|apply inv_init]|].
    pose proof ND as ND0. rewrite map_app in ND0. cbn [map] in ND0. apply NoDup_remove_1 in ND0. rewrite app_nil_r in ND0.
    rewrite app_length in Lf. cbn in Lf. destruct IH as (c & E & I0); auto; [lia|].
    unfold do_steps in *. rewrite fold_left_app, E. cbn [fold_left bind]. apply inv_step; auto. lia.
  Qed.
End History.

(* ==== C89 ==== *)
(* Every name is defined once, set or linked, in any order: afterwards exactly the names
   that lead to a value have one, and it is that one; nothing is done to the values. *)
Theorem c89_names_resolve : forall (V M : Type) (L : layer V M) (m : M) (h : list (cstep V)) (fuel : nat),
  NoDup (map defines h) -> (length h <= fuel)%nat ->
  exists c, do_steps L fuel (cempty m) h = Ok c /\ cmem c = m /\
    (forall k v, cindex L c [k] = Ok (v, c) <-> resolves h k v) /\
    (forall k, ccount L c [k] = Ok true <-> exists v, resolves h k v) /\
    (forall k, (~ exists v, resolves h k v) -> cindex L c [k] = Abort /\ ccount L c [k] = Ok false) /\
    NoDup (ckeys_list c) /\ (forall k, In k (ckeys_list c) <-> exists v, resolves h k v).
Proof.
  intros V M L m h fuel ND Lf. destruct (inv_run L fuel m h ND Lf) as (c & E & I0). exists c. split; [exact E|].
  split; [exact (i_mem _ _ _ I0)|]. pose proof (i_keys _ _ _ I0) as K.
  assert (Kx : forall k, In k (ckeys_list c) <-> exists v, resolves h k v).
  { intro k. unfold ckeys_list. split.
    - intro H. apply In_akeys_afind in H as (v & H). exists v. now apply K.
    - intros (v & H). apply K in H. eapply afind_Some_key; eauto. }
  split; [|split; [|split; [|split]]]; auto.
  - intros k v. cbn [cindex]. rewrite <- K. destruct (afind k (ckeys c)); split; congruence.
  - intros k. cbn [ccount]. destruct (afind k (ckeys c)) as [v|] eqn:Ek.
    + split; auto. intros _. exists v. now apply K.
    + split; [discriminate|]. intros (v & H). apply K in H. congruence.
  - intros k H. cbn [ccount cindex]. destruct (afind k (ckeys c)) as [v|] eqn:Ek; auto. exfalso. apply H. exists v. now apply K.
  - exact (proj2 (i_fine _ _ _ I0)).
Qed.
Print Assumptions c89_names_resolve.

(* The order of the steps does not matter. *)
Theorem c89_order_irrelevant : forall (V M : Type) (L : layer V M) (m : M) (h1 h2 : list (cstep V)) (fuel : nat),
  NoDup (map defines h1) -> Permutation h1 h2 -> (length h1 <= fuel)%nat ->
  exists c1 c2, do_steps L fuel (cempty m) h1 = Ok c1 /\ do_steps L fuel (cempty m) h2 = Ok c2 /\
    (forall k v, cindex L c1 [k] = Ok (v, c1) <-> cindex L c2 [k] = Ok (v, c2)) /\
    (forall k, ccount L c1 [k] = ccount L c2 [k]) /\ Permutation (ckeys_list c1) (ckeys_list c2).
Proof.
  intros V M L m h1 h2 fuel ND Pm Lf.
  destruct (c89_names_resolve V M L m h1 fuel ND Lf) as (c1 & E1 & _ & A1 & B1 & _ & N1 & K1).
  assert (ND2 : NoDup (map defines h2)) by (eapply Permutation_NoDup; [apply Permutation_map; exact Pm|exact ND]).
  rewrite (Permutation_length Pm) in Lf.
  destruct (c89_names_resolve V M L m h2 fuel ND2 Lf) as (c2 & E2 & _ & A2 & B2 & _ & N2 & K2).
  assert (R : forall k v, resolves h1 k v <-> resolves h2 k v).
  { intros k v. split; induction 1; [apply res_set|eapply res_link; eauto|apply res_set|eapply res_link; eauto];
      first [now apply (Permutation_in _ Pm)|now apply (Permutation_in _ (Permutation_sym Pm))]. }
  exists c1, c2. split; [exact E1|]. split; [exact E2|]. split; [|split].
  - intros k v. now rewrite A1, A2, R.
  - intros k. cbn [ccount]. specialize (K1 k). specialize (K2 k). unfold ckeys_list in *.
    destruct (afind k (ckeys c1)) as [v|] eqn:F1, (afind k (ckeys c2)) as [w|] eqn:F2; auto; exfalso.
    + apply afind_None in F2. apply F2, K2. apply afind_Some_key, K1 in F1 as (u & F1). exists u. now apply R.
    + apply afind_None in F1. apply F1, K1. apply afind_Some_key, K2 in F2 as (u & F2). exists u. now apply R.
  - apply NoDup_Permutation; auto. intro k. rewrite K1, K2. split; intros (v & Hv); exists v; now apply R.
Qed.
Print Assumptions c89_order_irrelevant.

Definition toy : layer nat unit := Layer (fun _ _ _ => Ok true) (fun m v p => Ok (v + length p, m)) (fun m _ _ _ => Ok m).
(* a chain of links and two links to one name, made before and after the value is there *)
Example c89_ex : let h := [LinkKey (lit "c") (lit "b"); LinkKey (lit "b") (lit "a"); LinkKey (lit "d") (lit "a"); SetKey (lit "a") 7; LinkKey (lit "e") (lit "c"); LinkKey (lit "f") (lit "f"); SetKey (lit "g") 8] in
  NoDup (map defines h) /\ resolves h (lit "e") 7 /\
  exists c, do_steps toy 9 (cempty tt) h = Ok c /\ map (fun k => afind k (ckeys c)) [lit "a"; lit "b"; lit "c"; lit "d"; lit "e"; lit "f"; lit "g"] =
    [Some 7; Some 7; Some 7; Some 7; Some 7; None; Some 8].
Proof.
  split; [repeat (constructor; [cbn; intuition discriminate|]); constructor|]. split.
  - apply (res_link _ _ (lit "c")); [cbn; tauto|]. apply (res_link _ _ (lit "b")); [cbn; tauto|].
    apply (res_link _ _ (lit "a")); [cbn; tauto|]. apply res_set. cbn; tauto.
  - eexists. split; vm_compute; reflexivity.
Qed.

(* A name that is defined twice: a second set reads past the end of an empty path; so does
   a value that arrives over a second link. *)
Theorem c89_defined_twice_refuted : forall (V M : Type) (L : layer V M) (m : M) (v w : V) (k : str),
  do_steps L 5 (cempty m) [SetKey k v; SetKey k w] = UB /\
  do_steps L 5 (cempty m) [LinkKey (lit "a") (lit "x"); LinkKey (lit "a") (lit "y"); SetKey (lit "x") v; SetKey (lit "y") w] = UB.
Proof.
  intros V M L m v w k. split; [|reflexivity].
  destruct (c89_names_resolve V M L m [SetKey k v] 5) as (c & E & _ & A & _).
  - constructor; [intros []|constructor].
  - cbn; lia.
  - unfold do_steps in *. change [SetKey k v; SetKey k w] with ([SetKey k v] ++ [SetKey k w]). rewrite fold_left_app, E. cbn [fold_left bind do_step cset].
    assert (H : cindex L c [k] = Ok (v, c)) by (apply A, res_set; cbn; auto). cbn [cindex] in H.
    destruct (afind k (ckeys c)); [reflexivity|discriminate].
Qed.
Print Assumptions c89_defined_twice_refuted.

(* A link to a part of something that is not there yet gets the whole of it. *)
Theorem c89_link_to_part_refuted : forall (V M : Type) (L : layer V M) (m : M) (v : V),
  exists c1 c2, clink L 5 (cempty m) [lit "a"] [lit "b"; lit "c"] = Ok c1 /\ cset L 5 c1 [lit "b"] v = Ok c2 /\
    cindex L c2 [lit "a"] = Ok (v, c2) /\
    cindex L c2 [lit "b"; lit "c"] = (do (w, m') <- lget L m v [lit "c"]; Ok (w, Cfg (ckeys c2) (clinks c2) m')).
Proof. intros. do 2 eexists. repeat (split; [reflexivity|]). reflexivity. Qed.
Print Assumptions c89_link_to_part_refuted.

(* Two parts linked to each other: setting the whole never ends. *)
Definition knot : node := node_add (node_add empty_node [lit "a"; lit "x"] [lit "a"; lit "x"]) [lit "b"; lit "y"] [lit "a"; lit "x"].
Lemma knot_spins v : forall fuel, cset toy fuel (Cfg [(lit "a", v)] knot tt) [lit "a"; lit "x"] v = OutOfFuel.
Proof.
  induction fuel as [|f IH]; [reflexivity|].
  change (cset toy (S f) (Cfg [(lit "a", v)] knot tt) [lit "a"; lit "x"] v) with
    (do c2 <- (do x <- cset toy f (Cfg [(lit "a", v)] knot tt) [lit "a"; lit "x"] v; cset toy f x [lit "b"; lit "y"] v);
     Ok (Cfg (ckeys c2) (node_erase (clinks c2) [lit "a"; lit "x"]) (cmem c2))).
  rewrite IH. reflexivity.
Qed.
Theorem c89_endless_refuted : forall (v : nat), exists c1 c2,
  clink toy 5 (cempty tt) [lit "a"; lit "x"] [lit "b"; lit "y"] = Ok c1 /\
  clink toy 5 c1 [lit "b"; lit "y"] [lit "a"; lit "x"] = Ok c2 /\
  forall fuel, cset toy fuel c2 [lit "a"] v = OutOfFuel.
Proof.
  intro v. do 2 eexists. split; [reflexivity|]. split; [reflexivity|]. intro fuel. destruct fuel as [|f]; [reflexivity|].
  match goal with |- cset toy (S f) ?c _ v = _ => change (cset toy (S f) c [lit "a"] v) with
    (do c2 <- (do x <- cset toy f (Cfg [(lit "a", v)] knot tt) [lit "a"; lit "x"] v; cset toy f x [lit "b"; lit "y"] v);
     Ok (Cfg (ckeys c2) (node_erase (clinks c2) [lit "a"]) (cmem c2))) end.
  rewrite knot_spins. reflexivity.
Qed.
Print Assumptions c89_endless_refuted.

(* ---- parts of values ---- *)
Lemma nothing_below n p : flat n -> (1 < length p)%nat -> subtree (node_sub (node_get n p) p) = Ok [] /\ flat (node_erase (node_get n p) p) /\
  forall l t, pend (node_erase (node_get n p) p) l t <-> pend n l t.
Proof.
  intros (W & Hd & Hr) Lp. assert (Wg : nwf (node_get n p)) by (apply nwf_at; auto).
  assert (Hb : forall q, has (node_get n p) q -> (length q <= 1)%nat \/ prefix q p).
  { intros q H. apply has_get in H as [H|H]; auto. }
  split; [|split].
  - destruct (subtree_spec (node_sub (node_get n p) p) [] (nwf_sub p _ Wg)) as (l & E & _ & S).
    { intros q x Hx. exfalso. apply has_sub in Hx; [|now destruct q]. apply Hb in Hx as [Hx|(z & Hx)].
      - rewrite app_length in Hx. lia.
      - apply (f_equal (@length str)) in Hx. rewrite !app_length in Hx. cbn in Hx. lia. }
    unfold subtree. rewrite E. destruct l as [|[q m] l]; auto. exfalso. destruct (proj1 (S q m) (or_introl eq_refl)) as (r & -> & P).
    assert (P' : pr (node_get n p) (p ++ r) m) by (unfold pr; now rewrite sub_app). apply pr_get in P'.
    apply Hr in P' as (k & x & E1 & _). apply (f_equal (@length str)) in E1. rewrite app_length in E1. cbn in E1. lia.
  - split; [exact (nwf_step _ (NErase p) Wg)|]. split.
    + intros q H. apply has_erase in H as [->|(r & (z & ->) & Hh & Np & D)]; [cbn; lia|]. apply Hb in Hh as [Hh|Hh].
      * rewrite app_length in Hh. lia.
      * destruct D as [D|(m & Pm)]; [contradiction|]. apply pr_get in Pm. apply Hr in Pm as (k & x & E1 & _).
        apply (f_equal (@length str)) in E1. rewrite app_length in E1. cbn in E1. lia.
    + intros q m H. apply pr_erase in H as (H & _). apply pr_get in H. eauto.
  - intros l t. unfold pend. rewrite pr_erase, pr_get. split; [tauto|]. intro H. split; auto. intros (z & E).
    apply (f_equal (@length str)) in E. rewrite app_length in E. cbn in E. lia.
Qed.
Lemma inv_mem {V M} (h : list (cstep V)) (m m' : M) (c : cfg V M) : inv h m c -> inv h m' (Cfg (ckeys c) (clinks c) m').
Proof. intros [A B C D E F]. split; auto. Qed.

(* A link to a part of a value that is there gives the name that part, and so to the names
   linked to it. *)
Theorem c89_link_to_present_part : forall (V M : Type) (L : layer V M) (m m' : M) (h : list (cstep V)) (fuel : nat) (k t : str) (rest : path) (v w : V),
  NoDup (map defines (h ++ [SetKey k w])) -> (length h < fuel)%nat -> rest <> [] ->
  resolves h t v -> lget L m v rest = Ok (w, m') ->
  exists c c', do_steps L fuel (cempty m) h = Ok c /\ clink L fuel c [k] (t :: rest) = Ok c' /\ cmem c' = m' /\
    forall x u, cindex L c' [x] = Ok (u, c') <-> resolves (h ++ [SetKey k w]) x u.
Proof.
  intros V M L m m' h fuel k t rest v w ND Lf Nr R G. assert (NDh : NoDup (map defines h)).
  { rewrite map_app in ND. cbn [map] in ND. apply NoDup_remove_1 in ND. now rewrite app_nil_r in ND. }
  destruct (inv_run L fuel m h NDh) as (c & E & I0); [lia|].
  destruct (inv_step L h m' (Cfg (ckeys c) (clinks c) m') fuel (SetKey k w) (inv_mem _ _ _ _ I0) ND Lf) as (c' & E' & I').
  exists c, c'. split; [exact E|]. split; [|split; [exact (i_mem _ _ _ I')|]].
  - unfold clink. rewrite (proj2 (i_keys _ _ _ I0 t v) R). rewrite (i_mem _ _ _ I0). destruct rest; [contradiction|]. rewrite G. exact E'.
  - intros x u. rewrite <- (i_keys _ _ _ I' x u). cbn [cindex]. destruct (afind x (ckeys c')); split; congruence.
Qed.
Print Assumptions c89_link_to_present_part.

(* Setting a part assigns to that component of the value the name stands for, and changes
   nothing else; it is reported when the name has no value. *)
Theorem c89_set_part : forall (V M : Type) (L : layer V M) (m m1 m2 : M) (h : list (cstep V)) (fuel : nat) (k comp : str) (rest : path) (v w a : V),
  NoDup (map defines h) -> (length h <= fuel)%nat -> resolves h k v ->
  lget L m v rest = Ok (w, m1) -> lput L m1 w comp a = Ok m2 ->
  exists c c', do_steps L fuel (cempty m) h = Ok c /\ cset L (S fuel) c (k :: rest ++ [comp]) a = Ok c' /\ cmem c' = m2 /\
    forall x u, cindex L c' [x] = Ok (u, c') <-> resolves h x u.
Proof.
  intros V M L m m1 m2 h fuel k comp rest v w a ND Lf R G G2.
  destruct (inv_run L fuel m h ND Lf) as (c & E & I0). pose proof (proj2 (i_keys _ _ _ I0 k v) R) as Ek.
  destruct (nothing_below (clinks c) (k :: rest ++ [comp])) as (Es & Fl & Pn); [exact (proj1 (i_fine _ _ _ I0))|cbn; rewrite app_length; cbn; lia|].
  exists c. eexists. split; [exact E|]. split.
  - cbn [cset]. rewrite Ek. unfold value_set. rewrite removelast_last, last_last, (i_mem _ _ _ I0), G.
    replace (match rest ++ [comp] with [] => UB | _ :: _ => do (w0, m0) <- Ok (w, m1); lput L m0 w0 comp a end) with (Ok m2)
      by (destruct rest; cbn; congruence).
    cbn [bind clinks ckeys cmem]. rewrite Es. cbn [bind fold_left clinks ckeys cmem]. reflexivity.
  - cbn [cmem]. split; auto. intros x u. rewrite <- (i_keys _ _ _ I0 x u). cbn [cindex ckeys]. destruct (afind x (ckeys c)); split; congruence.
Qed.
Print Assumptions c89_set_part.

Theorem c89_part_of_nothing : forall (V M : Type) (L : layer V M) (m : M) (h : list (cstep V)) (fuel : nat) (k comp : str) (rest : path) (a : V),
  NoDup (map defines h) -> (length h <= fuel)%nat -> (~ exists v, resolves h k v) ->
  exists c, do_steps L fuel (cempty m) h = Ok c /\ cset L (S fuel) c (k :: rest ++ [comp]) a = Abort /\
    ccount L c (k :: rest ++ [comp]) = Ok false /\ cindex L c (k :: rest ++ [comp]) = Abort.
Proof.
  intros V M L m h fuel k comp rest a ND Lf R. destruct (inv_run L fuel m h ND Lf) as (c & E & I0). exists c. split; [exact E|].
  cbn [cset ccount cindex]. destruct (afind k (ckeys c)) as [v|] eqn:Ek; [exfalso; apply R; exists v; now apply (i_keys _ _ _ I0)|].
  destruct (rest ++ [comp]) eqn:Er; [destruct rest; discriminate|]. repeat split.
Qed.
Print Assumptions c89_part_of_nothing.

(* Reading and looking for a part is done to the value the name stands for. *)
Theorem c89_read_part : forall (V M : Type) (L : layer V M) (m : M) (h : list (cstep V)) (fuel : nat) (k comp : str) (rest : path) (v : V),
  NoDup (map defines h) -> (length h <= fuel)%nat -> resolves h k v ->
  exists c, do_steps L fuel (cempty m) h = Ok c /\
    ccount L c (k :: comp :: rest) = lhas L m v (comp :: rest) /\
    (forall w m', lget L m v (comp :: rest) = Ok (w, m') -> exists c', cindex L c (k :: comp :: rest) = Ok (w, c') /\ cmem c' = m' /\
       forall x u, cindex L c' [x] = Ok (u, c') <-> resolves h x u).
Proof.
  intros V M L m h fuel k comp rest v ND Lf R. destruct (inv_run L fuel m h ND Lf) as (c & E & I0). exists c. split; [exact E|].
  pose proof (proj2 (i_keys _ _ _ I0 k v) R) as Ek. cbn [ccount cindex]. rewrite Ek, (i_mem _ _ _ I0). split; [reflexivity|].
  intros w m' G. rewrite G. cbn [bind]. eexists. split; [reflexivity|]. split; [reflexivity|].
  intros x u. rewrite <- (i_keys _ _ _ I0 x u). cbn [cindex ckeys]. destruct (afind x (ckeys c)); split; congruence.
Qed.
Print Assumptions c89_read_part.
Example c89_parts_ex : let h := [LinkKey (lit "b") (lit "a"); SetKey (lit "a") 7; LinkKey (lit "d") (lit "c")] in
  exists c c1 c2, do_steps toy 9 (cempty tt) h = Ok c /\ clink toy 9 c [lit "c"] [lit "b"; lit "x"] = Ok c1 /\
    cset toy 9 c1 [lit "b"; lit "y"] 3 = Ok c2 /\ map (fun k => afind k (ckeys c2)) [lit "a"; lit "b"; lit "c"; lit "d"] = [Some 7; Some 7; Some 8; Some 8].
Proof. do 3 eexists. split; [vm_compute; reflexivity|]. split; [vm_compute; reflexivity|]. split; vm_compute; reflexivity. Qed.
