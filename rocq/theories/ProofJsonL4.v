(* ProofJsonL4.v - proofs: owners, and objects nobody owns. *)
From Verif Require Import Base Dec ModelJson ModelJsonW ModelJsonT ModelJsonH ProofJsonH1 ProofUMap ModelJsonL SpecJsonL ProofJsonL1 ProofJsonL2.
From Coq Require Import Lia.
Local Open Scope nat_scope.
Local Open Scope outcome_scope.

Lemma all_owned_put m b h : nth_error m b = Some (Some h) -> length (all_owned (put m b None)) + length (owned h) = length (all_owned m).
Proof.
  unfold all_owned. revert b. induction m as [|c m IH]; intros [|b] E; try discriminate; cbn [nth_error] in E; cbn [put map concat].
  - injection E as ->. cbn [owned_at app]. rewrite app_length. lia.
  - rewrite !app_length. specialize (IH b E). lia.
Qed.
Lemma aset_has {V} k (v : V) l : In (k, v) (aset k v l).
Proof. induction l as [|[k' v'] l IH]; cbn [aset]; [now left|]. destruct (str_eqb k k'); [now left|now right]. Qed.
Lemma vset_has p : forall h x k y, In (k, y) (ptrs x) -> In (k, y) (ptrs (vset h p x)).
Proof.
  induction p as [|n p IH]; intros h x k y I1; [exact I1|]. cbn [vset ptrs]. apply in_concat_pairs. exists n.
  eexists. split; [apply aset_has|]. now apply IH.
Qed.
Lemma lmap_set_has n x l : In (n, x) (lmap_set n x l).
Proof. induction l as [|[k' v'] l IH]; cbn [lmap_set]; [now left|]. destruct (str_eqb n k'); [now left|]. destruct (str_ltb n k'); [now left|now right]. Qed.

(* every object a constructor makes is owned by another, or by what is being made *)
Definition owners {X} (pt : X -> list (bool * nat)) (b : lstore -> X * lstore) : Prop :=
  forall m h m1, b m = (h, m1) -> (exists n, m1 = m ++ n) /\
    forall x, length m <= x < length m1 -> In (true, x) (pt h) \/ exists j hj, length m <= j /\ nth_error m1 j = Some (Some hj) /\ In (true, x) (ptrs hj).
Lemma owners_cons {X Y Z} (pt : X -> list (bool * nat)) (qt : Y -> list (bool * nat)) (rt : Z -> list (bool * nat)) b c (g : X -> Y -> Z) :
  owners pt b -> owners qt c -> (forall h hs, rt (g h hs) = pt h ++ qt hs) ->
  owners rt (fun m => let (h, m1) := b m in let (hs, m2) := c m1 in (g h hs, m2)).
Proof.
  intros Hb Hc G m z m2 E. destruct (b m) as [h m1] eqn:E1. destruct (c m1) as [hs m2'] eqn:E2. injection E as <- <-.
  destruct (Hb _ _ _ E1) as [[n ->] B1]. destruct (Hc _ _ _ E2) as [[n' ->] C1]. split; [exists (n ++ n'); now rewrite app_assoc|].
  intros x Lx. rewrite G. destruct (Nat.lt_ge_cases x (length (m ++ n))) as [L|L].
  - destruct (B1 x) as [Q|(j & hj & Q1 & Q2 & Q3)]; [lia|left; apply in_app_iff; auto|]. right. exists j, hj. split; auto. split; auto.
    rewrite nth_error_app1; auto. eapply nth_some_lt; eauto.
  - destruct (C1 x) as [Q|(j & hj & Q1 & Q2 & Q3)]; [lia|left; apply in_app_iff; auto|]. right. exists j, hj. split; auto.
    rewrite app_length in Q1. lia.
Qed.
Lemma owners_nil {X} (pt : X -> list (bool * nat)) h : owners pt (fun m => (h, m)).
Proof. intros m h' m1 E. injection E as <- <-. split; [exists []; now rewrite app_nil_r|]. intros x Lx. lia. Qed.
Lemma owners_ext {X} (pt : X -> list (bool * nat)) b c : (forall m, b m = c m) -> owners pt c -> owners pt b.
Proof. intros H O m h m1 E. rewrite H in E. now apply O. Qed.
Lemma owners_map {X Y} (pt : X -> list (bool * nat)) (qt : Y -> list (bool * nat)) b (g : X -> Y) : owners pt b -> (forall h, qt (g h) = pt h) ->
  owners qt (fun m => let (h, m1) := b m in (g h, m1)).
Proof. intros O G m h m1 E. destruct (b m) as [h0 m0] eqn:E1. injection E as <- <-. rewrite G. now apply O. Qed.
Lemma lbuild_owners v : owners ptrs (lbuild v).
Proof.
  induction v as [v Hv| |p IH|l IH|l IH|l IH] using val_full.
  - apply owners_ext with (c := fun m => (LV v, m)); [destruct v; contradiction || reflexivity|apply owners_nil].
  - apply owners_nil.
  - intros m h m1 E. cbn [lbuild] in E. destruct (lbuild p m) as [hp m0] eqn:E1. injection E as <- <-. destruct (IH _ _ _ E1) as [[n ->] B].
    split; [exists (n ++ [Some hp]); now rewrite app_assoc|]. intros x Lx. rewrite app_length in Lx. cbn [length] in Lx.
    destruct (Nat.eq_dec x (length (m ++ n))) as [->|N]; [left; now left|]. right.
    destruct (B x) as [Q|(j & hj & Q1 & Q2 & Q3)]; [lia| |].
    + exists (length (m ++ n)), hp. split; [rewrite app_length; lia|]. split; auto. rewrite nth_error_app2 by lia. now rewrite Nat.sub_diag.
    + exists j, hj. split; auto. split; auto. rewrite nth_error_app1; auto. eapply nth_some_lt; eauto.
  - apply owners_ext with (c := fun m => let (hs, m1) := lbuild_l l m in (LL hs, m1)); [reflexivity|].
    apply (owners_map (fun hs => concat (map ptrs hs))); [|reflexivity].
    induction IH as [|x l Hx Hl IHl]; [apply (owners_nil _ [])|]. cbn [lbuild_l]. apply (owners_cons ptrs (fun hs => concat (map ptrs hs))); auto.
  - apply owners_ext with (c := fun m => let (hs, m1) := lbuild_p l m in (LM hs, m1)); [reflexivity|].
    apply (owners_map (fun hs => concat (map (fun kv => ptrs (snd kv)) hs))); [|reflexivity].
    induction IH as [|[n x] l Hx Hl IHl]; [apply (owners_nil _ [])|]. cbn [lbuild_p]. apply (owners_cons ptrs (fun hs => concat (map (fun kv => ptrs (snd kv)) hs)) _ _ _ (fun h hs => (n, h) :: hs)); auto.
  - apply owners_ext with (c := fun m => let (hs, m1) := lbuild_p l m in (LO hs, m1)); [reflexivity|].
    apply (owners_map (fun hs => concat (map (fun kv => ptrs (snd kv)) hs))); [|reflexivity].
    induction IH as [|[n x] l Hx Hl IHl]; [apply (owners_nil _ [])|]. cbn [lbuild_p]. apply (owners_cons ptrs (fun hs => concat (map (fun kv => ptrs (snd kv)) hs)) _ _ _ (fun h hs => (n, h) :: hs)); auto.
Qed.

Section Owners.
Variables (ext : list nat) (e : env).
Definition no_plain : Prop := forall t i, nth_error e t <> Some (DPtr false i).
Definition kept (m : lstore) (x : nat) : Prop := In x ext \/ pointer m true x.

Lemma release_kept (Rt : nat -> Prop) : forall fuel todo m, length todo + length (all_owned m) <= fuel ->
  (forall x, live m x -> Rt x \/ kept m x \/ In x todo) ->
  forall x, live (release fuel ext todo m) x -> Rt x \/ kept (release fuel ext todo m) x.
Proof.
  induction fuel as [|f IH]; intros todo m L H.
  - destruct todo; [|cbn in L; lia]. cbn. intros x Lx. destruct (H x Lx) as [Q|[Q|[]]]; auto.
  - destruct todo as [|b todo]; cbn [release]; [intros x Lx; destruct (H x Lx) as [Q|[Q|[]]]; auto|]. cbn [length] in L.
    destruct (existsb (Nat.eqb b) ext || existsb (Nat.eqb b) (all_owned m))%bool eqn:E.
    + apply IH; [lia|]. intros x Lx. destruct (H x Lx) as [Q|[Q|[<-|Q]]]; auto. right. left.
      apply Bool.orb_true_iff in E as [E|E]; apply existsb_in in E; [now left|right; now apply in_all_owned].
    + destruct (nth_error m b) as [[h|]|] eqn:Eb.
      * pose proof (all_owned_put _ _ _ Eb) as Lo. apply IH; [rewrite app_length; lia|].
        intros x (hx & Ex). apply put_cases in Ex as [[_ Q]|[N Ex]]; [discriminate|].
        destruct (H x (ex_intro _ hx Ex)) as [Q|[[Q|(y & hy & Ey & Iy)]|[Q|Q]]]; auto.
        -- right. left. now left.
        -- destruct (Nat.eq_dec y b) as [->|Ny].
           ++ right. right. apply in_app_iff. left. apply in_owned. congruence.
           ++ right. left. right. exists y, hy. rewrite put_other; auto.
        -- congruence.
        -- right. right. apply in_app_iff. auto.
      * apply IH; [lia|]. intros x Lx. destruct (H x Lx) as [Q|[Q|[<-|Q]]]; auto. destruct Lx as [hx Ex]. congruence.
      * apply IH; [lia|]. intros x Lx. destruct (H x Lx) as [Q|[Q|[<-|Q]]]; auto. destruct Lx as [hx Ex]. congruence.
Qed.
Lemma release_ext : forall fuel todo m x, In x ext -> live m x -> live (release fuel ext todo m) x.
Proof.
  induction fuel as [|f IH]; intros todo m x Ix Lx; [exact Lx|]. destruct todo as [|b todo]; [exact Lx|]. cbn [release].
  destruct (existsb (Nat.eqb b) ext || existsb (Nat.eqb b) (all_owned m))%bool eqn:E; [now apply IH|].
  destruct (nth_error m b) as [[h|]|]; try now apply IH. apply IH; auto. destruct Lx as [hx Ex]. exists hx. rewrite put_other; auto.
  intros ->. apply Bool.orb_false_iff in E as [E _]. apply existsb_in in Ix. congruence.
Qed.

Definition inv (m0 : lstore) (Rt : nat -> Prop) (m : lstore) : Prop :=
  length m0 <= length m /\ (forall x, In x ext -> live m0 x -> live m x) /\
  (no_plain -> forall x, live m x -> Rt x \/ kept m x).
Lemma drop_inv m0 Rt h m : length m0 <= length m -> (forall x, In x ext -> live m0 x -> live m x) ->
  (no_plain -> forall x, live m x -> Rt x \/ kept m x \/ In x (owned h)) -> inv m0 Rt (dropped ext h m).
Proof.
  intros L E H. unfold dropped. destruct (release_less ext (length (owned h) + length (all_owned m)) (owned h) m) as [_ Ln].
  split; [lia|]. split; [intros x Ix Lx; apply release_ext; auto|]. intro Np. apply release_kept; auto.
Qed.
Lemma live_put m a h x : live m x -> live (put m a (Some h)) x.
Proof.
  intros [hx Ex]. destruct (Nat.eq_dec x a) as [->|N]; [exists h; apply put_same; eapply nth_some_lt; eauto|exists hx; now rewrite put_other].
Qed.
Lemma put_live m a h h' x : nth_error m a = Some (Some h) -> live (put m a (Some h')) x -> live m x.
Proof. intros E [hx Ex]. apply put_cases in Ex as [[-> _]|[_ Ex]]; [now exists h|now exists hx]. Qed.
(* the object a gets another content; those of N, roots before, are owned by it now *)
Lemma put_inv m0 Rt (N : nat -> Prop) m a h h' : inv m0 (fun x => Rt x \/ N x) m -> nth_error m a = Some (Some h) ->
  (no_plain -> forall x, N x -> In (true, x) (ptrs h')) ->
  inv m0 Rt (dropped ext h (put m a (Some h'))).
Proof.
  intros (L & E & H) Ea Hn. apply drop_inv.
  - now rewrite put_length.
  - intros x Ix Lx. apply live_put. auto.
  - intros Np x Lx. assert (La : a < length m) by (eapply nth_some_lt; eauto).
    destruct (H Np x (put_live _ _ _ _ _ Ea Lx)) as [[Q|Q]|[Q|(y & hy & Ey & Iy)]]; auto.
    + right. left. right. exists a, h'. rewrite put_same by auto. auto.
    + right. left. now left.
    + destruct (Nat.eq_dec y a) as [->|Ny].
      * right. right. apply in_owned. congruence.
      * right. left. right. exists y, hy. rewrite put_other; auto.
Qed.
Lemma plain_inv m0 Rt m l x m1 : inv m0 Rt m -> write ext m l x = Ok m1 -> inv m0 Rt m1.
Proof.
  intros I1 W. unfold write in W. destruct (nth_error m (fst l)) as [[h|]|] eqn:E; try discriminate. injection W as <-.
  apply (put_inv m0 Rt (fun _ => False)); auto; [|intros _ y []]. destruct I1 as (A & B & C). split; [auto|]. split; [auto|].
  intros Np y Ly. destruct (C Np y Ly); auto.
Qed.
Lemma pointer_inv m0 Rt m l c m1 : inv m0 (fun x => Rt x \/ x = c) m -> write ext m l (LP true (Some c)) = Ok m1 -> inv m0 Rt m1.
Proof.
  intros I1 W. unfold write in W. destruct (nth_error m (fst l)) as [[h|]|] eqn:E; try discriminate. injection W as <-.
  apply (put_inv m0 Rt (fun x => x = c)); auto. intros _ y ->. apply vset_has. now left.
Qed.
(* c moved away *)
Lemma kill_inv m0 Rt m c y : inv m0 (fun x => Rt x \/ x = c) m -> length m0 <= c -> nth_error m c = Some (Some y) ->
  inv m0 (fun x => Rt x \/ In (true, x) (ptrs y)) (put m c None).
Proof.
  intros (L & E & H) Gc Ey. split; [now rewrite put_length|]. split.
  - intros x Ix Lx. assert (N : x <> c) by (apply live_lt in Lx; lia). destruct (E x Ix Lx) as [hx Ex]. exists hx. now rewrite put_other.
  - intros Np x (hx & Ex). apply put_cases in Ex as [[_ Q]|[N Ex]]; [discriminate|].
    destruct (H Np x (ex_intro _ hx Ex)) as [[Q|Q]|[Q|(z & hz & Ez & Iz)]]; auto; [contradiction|right; now left|].
    destruct (Nat.eq_dec z c) as [->|Nz]; [left; right; congruence|]. right. right. exists z, hz. rewrite put_other; auto.
Qed.
Lemma moved_inv m0 Rt m l y x m1 : inv m0 (fun z => Rt z \/ In (true, z) (ptrs y)) m ->
  (forall k z, In (k, z) (ptrs y) -> In (k, z) (ptrs x)) -> write ext m l x = Ok m1 -> inv m0 Rt m1.
Proof.
  intros I1 Hx W. unfold write in W. destruct (nth_error m (fst l)) as [[h|]|] eqn:E; try discriminate. injection W as <-.
  apply (put_inv m0 Rt (fun z => In (true, z) (ptrs y))); auto. intros _ z Hz. apply vset_has. auto.
Qed.
Lemma gone_inv m0 Rt m y : inv m0 (fun z => Rt z \/ In (true, z) (ptrs y)) m -> inv m0 Rt (dropped ext y m).
Proof.
  intros (L & E & H). apply drop_inv; auto. intros Np x Lx. destruct (H Np x Lx) as [[Q|Q]|Q]; auto.
  right. right. now apply in_owned.
Qed.
Lemma new_inv m0 Rt m i a m1 : inv m0 Rt m -> lnew e i m = (a, m1) -> inv m0 (fun x => Rt x \/ x = a) m1 /\ length m0 <= a.
Proof.
  intros (L & E & H) Hn. unfold lnew in Hn. destruct (lbuild (dval e i) m) as [h m'] eqn:Eb. injection Hn as <- <-.
  destruct (lbuild_owners _ _ _ _ Eb) as [[n ->] B]. rewrite app_length in *. split; [|lia].
  split; [rewrite !app_length; lia|]. split.
  - intros x Ix Lx. destruct (E x Ix Lx) as [hx Ex]. exists hx. rewrite <- app_assoc, nth_error_app1; auto. eapply nth_some_lt; eauto.
  - intros Np x (hx & Ex). pose proof (nth_some_lt _ _ _ Ex) as Lx. rewrite app_length, app_length in Lx. cbn [length] in Lx.
    assert (K : forall j hj, nth_error (m ++ n) j = Some (Some hj) -> In (true, x) (ptrs hj) -> pointer ((m ++ n) ++ [Some h]) true x).
    { intros j hj Ej Ij. exists j, hj. split; auto. rewrite nth_error_app1; auto. eapply nth_some_lt; eauto. }
    destruct (Nat.lt_ge_cases x (length m)) as [L1|L1].
    + rewrite <- app_assoc, nth_error_app1 in Ex by auto. destruct (H Np x (ex_intro _ hx Ex)) as [Q|[Q|(y & hy & Ey & Iy)]]; auto.
      * right. now left.
      * right. right. apply (K y hy); auto. rewrite nth_error_app1; auto. eapply nth_some_lt; eauto.
    + destruct (Nat.eq_dec x (length m + length n)) as [->|Nx]; auto. right. right.
      destruct (B x) as [Q|(j & hj & Q1 & Q2 & Q3)]; [lia| |eapply K; eauto].
      exists (length (m ++ n)), h. split; auto. rewrite nth_error_app2 by lia. now rewrite Nat.sub_diag.
Qed.

Definition okp {A} (P : A -> Prop) (x : outcome A) : Prop := match x with Ok a => P a | _ => True end.
Lemma okp_bind {A C} (P : A -> Prop) (Q : C -> Prop) x f : okp P x -> (forall a, P a -> okp Q (f a)) -> okp Q (bind x f).
Proof. destruct x; cbn; auto. Qed.
Lemma okp_any {A C} (Q : C -> Prop) (x : outcome A) f : (forall a, x = Ok a -> okp Q (f a)) -> okp Q (bind x f).
Proof. destruct x; cbn; auto. Qed.
Lemma okp_of {A} (R : A -> A -> Prop) (P : A -> Prop) x : orel R x x -> (forall a b, R a b -> P a) -> okp P x.
Proof. destruct x; cbn; eauto. Qed.
Definition pdiag (P : lstore -> Prop) (x y : lstore) : Prop := x = y /\ P x.
Lemma okp_orel P (x : outcome (lstore * reader)) : okp (fun y => P (fst y)) x -> orel (steps (pdiag P)) x x.
Proof. destruct x as [[m r]| | | |]; cbn; auto. intro H. repeat split; auto. Qed.
Lemma object_ok (P : lstore -> Prop) f fn m r : (forall k m r, P m -> okp (fun y => P (fst y)) (fn k m r)) -> P m -> okp (fun y => P (fst y)) (parse_object f fn m r).
Proof.
  intros H Pm. apply (okp_of (steps (pdiag P))).
  - apply parse_object_sim; [|split; auto]. intros k s s' r0 [<- Ps]. apply okp_orel. now apply H.
  - intros x y [[_ Q] _]. exact Q.
Qed.
Lemma array_ok (P : lstore -> Prop) f fn m r : (forall k m r, P m -> okp (fun y => P (fst y)) (fn k m r)) -> P m -> okp (fun y => P (fst y)) (parse_array f fn m r).
Proof.
  intros H Pm. apply (okp_of (steps (pdiag P))).
  - apply parse_array_sim; [|split; auto]. intros k s s' r0 [<- Ps]. apply okp_orel. now apply H.
  - intros x y [[_ Q] _]. exact Q.
Qed.

Lemma owners_main : forall f t l m0 Rt m r, inv m0 Rt m -> okp (fun y => inv m0 Rt (fst (fst y))) (parse_l ext f e t l m r).
Proof.
  induction f as [|f IH]; intros t l m0 Rt m r I0; [exact Logic.I|]. cbn [parse_l].
  destruct (nth_error e t) as [d|] eqn:Ed; [|exact Logic.I].
  assert (W : forall x (b : bool) (r1 : reader), okp (fun y : lstore * bool * reader => inv m0 Rt (fst (fst y))) (do m1 <- write ext m l x; Ok (m1, b, r1))).
  { intros x b r1. apply okp_any. intros m1 E. cbn [okp fst]. eapply plain_inv; eauto. }
  destruct d as [|is64|dbl| |smart i|i|i| |fs ini].
  - apply okp_any. intros [b r1] _. apply W.
  - apply okp_any. intros [b r1] _. destruct is64; [apply W|exact Logic.I].
  - apply okp_any. intros [b r1] _. destruct dbl; [apply W|exact Logic.I].
  - apply okp_any. intros [b r1] _. apply W.
  - apply okp_any. intros [tk r1] _. destruct (same_type tk TNull).
    + apply okp_any. intros [t2 r2] _. destruct smart; [apply W|exact I0].
    + apply okp_any. intros h _.
      assert (Fresh : okp (fun y : lstore * bool * reader => inv m0 Rt (fst (fst y)))
        (let (a0, m1) := lnew e i m in do (m2, _, r2) <- parse_l ext f e i (a0, []) m1 r1; do m3 <- write ext m2 l (LP smart (Some a0)); Ok (m3, false, r2))).
      { destruct (lnew e i m) as [c m1] eqn:En. destruct (new_inv _ _ _ _ _ _ I0 En) as [I1 Gc].
        apply (okp_bind (fun y => inv m0 (fun x => Rt x \/ x = c) (fst (fst y)))); [now apply IH|]. intros [[m2 mv] r2] I2. cbn [fst] in I2.
        apply okp_any. intros m3 Ew. cbn [okp fst]. destruct smart; [eapply pointer_inv; eauto|].
        unfold write in Ew. destruct (nth_error m2 (fst l)) as [[hl|]|] eqn:E2; try discriminate. injection Ew as <-.
        apply (put_inv m0 Rt (fun x => x = c)); auto. intros Np. exfalso. exact (Np _ _ Ed). }
      destruct h as [v|k [b|]|x|x|x]; try exact Fresh.
      apply okp_any. intros _ _. apply (okp_bind (fun y => inv m0 Rt (fst (fst y)))); [now apply IH|]. intros [[m2 mv] r2] I2. exact I2.
  - apply (okp_bind (fun y => inv m0 Rt (fst y))).
    + apply object_ok; auto. clear m r I0 W. intros k m r I0. destruct (lnew e i m) as [c m1] eqn:En. destruct (new_inv _ _ _ _ _ _ I0 En) as [I1 Gc].
      apply (okp_bind (fun y => inv m0 (fun x => Rt x \/ x = c) (fst (fst y)))); [now apply IH|]. intros [[m2 mv] r2] I2. cbn [fst] in I2.
      unfold look at 1. cbn [fst snd vget]. destruct (nth_error m2 c) as [[y|]|] eqn:Ey; try exact Logic.I. cbn [bind]. cbv zeta.
      pose proof (kill_inv _ _ _ _ _ I2 Gc Ey) as I3. destruct (rok r2); [|cbn [okp fst]; now apply gone_inv].
      destruct mv; [exact Logic.I|]. apply okp_any. intros h _. apply okp_any. intros m4 E4. cbn [okp fst]. refine (moved_inv _ _ _ _ y _ _ I3 _ E4).
      intros k0 z Iz. cbn [ptrs]. apply in_concat_pairs. exists k, y. split; [apply lmap_set_has|auto].
    + intros [m2 r2] I2. exact I2.
  - apply (okp_bind (fun y => inv m0 Rt (fst y))).
    + apply array_ok; auto. clear m r I0 W. intros k m r I0. destruct (lnew e i m) as [c m1] eqn:En. destruct (new_inv _ _ _ _ _ _ I0 En) as [I1 Gc].
      apply (okp_bind (fun y => inv m0 (fun x => Rt x \/ x = c) (fst (fst y)))); [now apply IH|]. intros [[m2 mv] r2] I2. cbn [fst] in I2.
      unfold look at 1. cbn [fst snd vget]. destruct (nth_error m2 c) as [[y|]|] eqn:Ey; try exact Logic.I. cbn [bind]. cbv zeta.
      pose proof (kill_inv _ _ _ _ _ I2 Gc Ey) as I3. destruct (rok r2); [|cbn [okp fst]; now apply gone_inv].
      destruct mv; [exact Logic.I|]. apply okp_any. intros h _. apply okp_any. intros m4 E4. cbn [okp fst]. refine (moved_inv _ _ _ _ y _ _ I3 _ E4).
      intros k0 z Iz. cbn [ptrs]. apply in_concat_list. exists y. split; [apply in_app_iff; right; now left|auto].
    + intros [m2 r2] I2. exact I2.
  - apply okp_any. intros [x r1] _. apply okp_any. intros [tk r2] _. destruct (assigns tk); [apply W|exact I0].
  - apply (okp_bind (fun y => inv m0 Rt (fst y))).
    + apply object_ok; auto. clear m r I0 W. intros k m r I0. destruct (find_alias fs k) as [fd|].
      * apply (okp_bind (fun y => inv m0 Rt (fst (fst y)))); [now apply IH|]. intros [[m2 mv] r2] I2. exact I2.
      * apply okp_any. intros r' _. exact I0.
    + intros [m2 r2] I2. exact I2.
Qed.
End Owners.
