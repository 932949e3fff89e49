(* ProofScope1.v - qualified names: head, tail, join *)
From Coq Require String.
Import String.StringSyntax.
From Verif Require Import Base ModelCore ModelScope SpecScope.
Local Open Scope Z_scope.

Lemma level_app a b : level (a ++ b) = level a + level b.
Proof. induction a as [|c a IH]; cbn [level app]; [lia|]. rewrite IH. lia. Qed.

Lemma level_colon : forall s, level (ch_colon :: s) = level s.
Proof. reflexivity. Qed.

Lemma app_colon_split (p q p' q' : str) : p ++ ch_colon :: q = p' ++ ch_colon :: q' ->
  (p = p' /\ q = q') \/ (exists r, p = p' ++ ch_colon :: r) \/ (exists r, p' = p ++ ch_colon :: r).
Proof.
  revert p'; induction p as [|c p IH]; intros [|c' p'] E; cbn in E.
  - left. split; congruence.
  - injection E as E1 E2. right. right. exists p'. now rewrite <- E1.
  - injection E as E1 E2. right. left. exists p. now rewrite E1.
  - injection E as <- E. destruct (IH _ E) as [[-> ->]|[[r ->]|[r ->]]].
    + left. auto.
    + right. left. exists r. reflexivity.
    + right. right. exists r. reflexivity.
Qed.

Lemma toplevel_prefix p q : toplevel_colon p -> toplevel_colon (p ++ q).
Proof. intros (a & b & -> & L). exists a, (b ++ q). rewrite <- app_assoc. auto. Qed.

Ltac ccong := unfold ch_colon, ch_lt, ch_gt in *; congruence.
Lemma toplevel_snoc s c : c <> ch_colon -> toplevel_colon (s ++ [c]) -> toplevel_colon s.
Proof.
  intros Hc (p & q & E & L). destruct q as [|x q _] using rev_ind.
  - apply app_inj_tail in E as [_ E]. ccong.
  - assert (E' : s ++ [c] = (p ++ ch_colon :: q) ++ [x]) by (rewrite E, <- app_assoc; reflexivity).
    apply app_inj_tail in E' as [-> _]. exists p, q. auto.
Qed.

Lemma toplevel_snoc_colon s : level s <> 0 -> toplevel_colon (s ++ [ch_colon]) -> toplevel_colon s.
Proof.
  intros Hl (p & q & E & L). destruct q as [|x q _] using rev_ind.
  - apply app_inj_tail in E as [-> _]. contradiction.
  - assert (E' : s ++ [ch_colon] = (p ++ ch_colon :: q) ++ [x]) by (rewrite E, <- app_assoc; reflexivity).
    apply app_inj_tail in E' as [-> _]. exists p, q. auto.
Qed.

Lemma head_scan_spec rest : forall acc n, n = level (rev acc) -> ~ toplevel_colon (rev acc) ->
  head_spec (rev acc ++ rest) (head_scan n acc rest).
Proof.
  induction rest as [|c r IH]; intros acc n Hn Ht; cbn [head_scan].
  - rewrite app_nil_r. destruct (Z.eqb_spec n 0) as [E|E]; cbn.
    + subst n. auto.
    + right. split; auto. ccong.
  - assert (Eapp : rev acc ++ c :: r = rev (c :: acc) ++ r) by (cbn; now rewrite <- app_assoc).
    destruct (N.eqb_spec c ch_lt) as [->|N1].
    { rewrite Eapp. apply IH; cbn [rev]; [rewrite level_app; subst n; reflexivity|].
      intro C. apply toplevel_snoc in C; [auto|discriminate]. }
    destruct (N.eqb_spec c ch_gt) as [->|N2].
    { rewrite Eapp. apply IH; cbn [rev]; [rewrite level_app; subst n; reflexivity|].
      intro C. apply toplevel_snoc in C; [auto|discriminate]. }
    assert (L0 : level (rev acc ++ [c]) = level (rev acc)).
    { rewrite level_app. cbn. change 60%N with ch_lt; change 62%N with ch_gt; destruct (N.eqb_spec c ch_lt), (N.eqb_spec c ch_gt); try contradiction. lia. }
    destruct (N.eqb_spec c ch_colon) as [->|N3].
    + destruct (Z.eqb_spec n 0) as [E|E]; cbn [negb].
      * assert (Lp : level (rev acc) = 0) by ccong.
        destruct r as [|c' t].
        { cbn. left. exists (rev acc), []. repeat split; auto. discriminate. }
        destruct (N.eqb_spec c' ch_colon) as [->|N4]; cbn.
        -- repeat split; auto.
        -- left. exists (rev acc), (c' :: t). repeat split; auto. ccong.
      * rewrite Eapp. apply IH; cbn [rev].
        -- ccong.
        -- intro C. apply toplevel_snoc_colon in C; ccong.
    + rewrite Eapp. apply IH; cbn [rev]; [ccong|].
      intro C. apply toplevel_snoc in C; auto.
Qed.

Lemma not_toplevel_nil : ~ toplevel_colon [].
Proof. intros (p & q & E & _). destruct p; discriminate. Qed.

Lemma head_correct name : head_spec name (head name).
Proof. apply (head_scan_spec name [] 0); [reflexivity|apply not_toplevel_nil]. Qed.

(* the specification determines the result *)
Lemma first_toplevel_unique p q p' q' : p ++ ch_colon :: q = p' ++ ch_colon :: q' ->
  level p = 0 -> level p' = 0 -> ~ toplevel_colon p -> ~ toplevel_colon p' -> p = p' /\ q = q'.
Proof.
  intros E L L' T T'. destruct (app_colon_split _ _ _ _ E) as [?|[[r ->]|[r ->]]]; auto; exfalso.
  - apply T. exists p', r. auto.
  - apply T'. exists p, r. auto.
Qed.

Lemma head_spec_fun name r r' : head_spec name r -> head_spec name r' -> r = r'.
Proof.
  assert (A : forall h t p q, name = h ++ sep ++ t -> level h = 0 -> ~ toplevel_colon h ->
     name = p ++ ch_colon :: q -> level p = 0 -> ~ toplevel_colon p -> h = p /\ q = ch_colon :: t).
  { intros h t p q E L T E' L' T'. rewrite E in E'. unfold sep in E'. cbn in E'.
    destruct (first_toplevel_unique _ _ _ _ E' L L' T T'). auto. }
  assert (B : forall h t, name = h ++ sep ++ t -> level h = 0 -> toplevel_colon name).
  { intros h t -> L. exists h, (ch_colon :: t). auto. }
  destruct r as [[h t]| | | |], r' as [[h' t']| | | |]; cbn; try tauto; try (intros; reflexivity).
  - intros (L & T & C) (L' & T' & C'). destruct C as [C|[C ->]], C' as [C'|[C' ->]].
    + destruct (A h t h' (ch_colon :: t') C L T C' L' T') as [-> E]. ccong.
    + exfalso. apply T'. rewrite <- C'. exact (B h t C L).
    + exfalso. apply T. rewrite <- C. exact (B h' t' C' L').
    + ccong.
  - intros (L & T & C) [(p & q & E & Lp & Tp & Hq)|[T' L']]; exfalso.
    + destruct C as [C|[C ->]].
      * destruct (A h t p q C L T E Lp Tp) as [_ ->]. now apply (Hq t).
      * apply T. exists p, q. split; ccong.
    + destruct C as [C|[C ->]]; [apply T'; exact (B h t C L)|ccong].
  - intros [(p & q & E & Lp & Tp & Hq)|[T' L']] (L & T & C); exfalso.
    + destruct C as [C|[C ->]].
      * destruct (A h' t' p q C L T E Lp Tp) as [_ ->]. now apply (Hq t').
      * apply T. exists p, q. split; ccong.
    + destruct C as [C|[C ->]]; [apply T'; exact (B h' t' C L)|ccong].
Qed.

Lemma head_iff name r : head name = r <-> head_spec name r.
Proof.
  split; [intros <-; apply head_correct|]. intro S. eapply head_spec_fun; eauto. apply head_correct.
Qed.

(* ---- tail is the mirror image of head ---- *)
Definition swapc (c : byte) : byte := if N.eqb c ch_lt then ch_gt else if N.eqb c ch_gt then ch_lt else c.
Definition mirror (s : str) : str := map swapc (rev s).

Lemma swapc_invol c : swapc (swapc c) = c.
Proof.
  unfold swapc. destruct (N.eqb_spec c ch_lt) as [->|]; [reflexivity|].
  destruct (N.eqb_spec c ch_gt) as [->|]; [reflexivity|].
  destruct (N.eqb_spec c ch_lt), (N.eqb_spec c ch_gt); ccong.
Qed.
Lemma map_swapc_invol s : map swapc (map swapc s) = s.
Proof. rewrite map_map. rewrite <- (map_id s) at 2. apply map_ext. apply swapc_invol. Qed.
Lemma mirror_invol s : mirror (mirror s) = s.
Proof. unfold mirror. rewrite <- map_rev, map_swapc_invol. apply rev_involutive. Qed.
Lemma swapc_colon c : swapc c = ch_colon <-> c = ch_colon.
Proof. unfold swapc. destruct (N.eqb_spec c ch_lt) as [->|]; [split; discriminate|].
  destruct (N.eqb_spec c ch_gt) as [->|]; [split; discriminate|]. tauto. Qed.
Lemma mirror_app a b : mirror (a ++ b) = mirror b ++ mirror a.
Proof. unfold mirror. now rewrite rev_app_distr, map_app. Qed.
Lemma mirror_colon s : mirror (ch_colon :: s) = mirror s ++ [ch_colon].
Proof. unfold mirror. cbn. now rewrite map_app. Qed.
Lemma swapc_lt c : N.eqb (swapc c) ch_lt = N.eqb c ch_gt.
Proof.
  unfold swapc. destruct (N.eqb_spec c ch_lt) as [->|N1]; [reflexivity|].
  destruct (N.eqb_spec c ch_gt) as [->|N2]; [reflexivity|]. now apply N.eqb_neq.
Qed.
Lemma swapc_gt c : N.eqb (swapc c) ch_gt = N.eqb c ch_lt.
Proof.
  unfold swapc. destruct (N.eqb_spec c ch_lt) as [->|N1]; [reflexivity|].
  destruct (N.eqb_spec c ch_gt) as [->|N2]; [reflexivity|]. now apply N.eqb_neq.
Qed.
Lemma level_mirror s : level (mirror s) = - level s.
Proof.
  induction s as [|c s IH]; [reflexivity|].
  change (c :: s) with ([c] ++ s). rewrite mirror_app, !level_app, IH.
  assert (E : level (mirror [c]) = - level [c]).
  { unfold mirror. cbn [rev app map level]. change 60%N with ch_lt; change 62%N with ch_gt. rewrite swapc_lt, swapc_gt.
    destruct (N.eqb_spec c ch_lt) as [->|N1]; [reflexivity|].
    destruct (N.eqb_spec c ch_gt) as [->|N2]; reflexivity. }
  lia.
Qed.

Definition omirror (r : outcome (str * str)) : outcome (str * str) :=
  match r with Ok (a, b) => Ok (mirror a, mirror b) | Abort => Abort | Throw => Throw | UB => UB | OutOfFuel => OutOfFuel end.

Lemma swapc_colonb c : N.eqb (swapc c) ch_colon = N.eqb c ch_colon.
Proof.
  destruct (N.eqb_spec c ch_colon) as [->|N1]; [reflexivity|].
  apply N.eqb_neq. intro C. apply N1. now apply swapc_colon.
Qed.

Lemma tail_scan_mirror rest : forall n acc,
  tail_scan n acc rest = omirror (head_scan n (map swapc acc) (map swapc rest)).
Proof.
  assert (M : forall s, mirror (rev (map swapc s)) = s).
  { intro s. unfold mirror. rewrite rev_involutive. apply map_swapc_invol. }
  induction rest as [|c r IH]; intros n acc; cbn [tail_scan head_scan map].
  - destruct (Z.eqb n 0); cbn; auto. now rewrite M.
  - rewrite swapc_lt, swapc_gt, swapc_colonb.
    destruct (N.eqb_spec c ch_lt) as [->|N1].
    { replace (N.eqb ch_lt ch_gt) with false by reflexivity. apply (IH (n - 1) (ch_lt :: acc)). }
    destruct (N.eqb_spec c ch_gt) as [->|N2]; [apply (IH (n + 1) (ch_gt :: acc))|].
    destruct (N.eqb c ch_colon) eqn:Ec; [|apply IH].
    destruct (negb (Z.eqb n 0)); [apply IH|].
    destruct r as [|c' t]; cbn [map]; auto. rewrite swapc_colonb.
    destruct (N.eqb c' ch_colon); cbn; auto. rewrite M. unfold mirror.
    now rewrite <- map_rev, map_swapc_invol.
Qed.

Lemma tail_mirror name : tail name = omirror (head (mirror name)).
Proof. unfold tail, head, mirror. apply (tail_scan_mirror (rev name) 0 []). Qed.

Lemma toplevel_mirror s : toplevel_colon (mirror s) <-> toplevel_colon_r s.
Proof.
  split.
  - intros (p & q & E & L). exists (mirror q), (mirror p). split.
    + rewrite <- (mirror_invol s), E, mirror_app, mirror_colon, <- app_assoc. reflexivity.
    + rewrite level_mirror. lia.
  - intros (p & q & -> & L). exists (mirror q), (mirror p). split.
    + rewrite mirror_app, mirror_colon, <- app_assoc. reflexivity.
    + rewrite level_mirror. lia.
Qed.

Lemma toplevel_r_balanced s : level s = 0 -> (toplevel_colon s <-> toplevel_colon_r s).
Proof.
  intro L. split; intros (p & q & -> & Lp); exists p, q; split; auto; rewrite level_app, level_colon in L; lia.
Qed.

Lemma mirror_inj a b : mirror a = mirror b -> a = b.
Proof. intro E. rewrite <- (mirror_invol a), E. apply mirror_invol. Qed.

Lemma tail_spec_mirror name r : head_spec (mirror name) r -> tail_spec name (omirror r).
Proof.
  destruct r as [[h t]| | | |]; cbn [omirror tail_spec head_spec]; auto.
  - intros (L & T & C). repeat split.
    + rewrite level_mirror. lia.
    + intro X. apply toplevel_mirror in X. rewrite mirror_invol in X. auto.
    + destruct C as [C|[C ->]].
      * left. apply mirror_inj. rewrite C, !mirror_app, !mirror_invol, <- app_assoc. reflexivity.
      * right. split; [|reflexivity]. rewrite <- C. now rewrite mirror_invol.
  - intros [(p & q & E & Lp & T & Hq)|[T L]].
    + left. exists (mirror q), (mirror p). repeat split.
      * apply mirror_inj. rewrite E, mirror_app, mirror_colon, !mirror_invol, <- app_assoc. reflexivity.
      * rewrite level_mirror. lia.
      * intro X. apply toplevel_mirror in X. rewrite mirror_invol in X. auto.
      * intros p' Ep. apply (Hq (mirror p')). apply mirror_inj. rewrite Ep, mirror_colon, mirror_invol. reflexivity.
    + right. split.
      * intro X. apply T. now apply toplevel_mirror.
      * rewrite level_mirror in L. lia.
Qed.

Lemma tail_spec_mirror_inv name r : tail_spec name r -> head_spec (mirror name) (omirror r).
Proof.
  destruct r as [[h t]| | | |]; cbn [omirror tail_spec head_spec]; auto.
  - intros (L & T & C). repeat split.
    + rewrite level_mirror. lia.
    + intro X. apply toplevel_mirror in X. auto.
    + destruct C as [C|[C ->]].
      * left. rewrite C, !mirror_app, <- app_assoc. reflexivity.
      * right. split; [ccong|reflexivity].
  - intros [(p & q & E & Lp & T & Hq)|[T L]].
    + left. exists (mirror q), (mirror p). repeat split.
      * rewrite E, mirror_app, mirror_colon, <- app_assoc. reflexivity.
      * rewrite level_mirror. lia.
      * intro X. apply toplevel_mirror in X. auto.
      * intros q' Ep. apply (Hq (mirror q')). apply mirror_inj. rewrite Ep, mirror_app, mirror_invol. reflexivity.
    + right. split.
      * intro X. apply T. now apply toplevel_mirror.
      * rewrite level_mirror. lia.
Qed.

Lemma omirror_invol r : omirror (omirror r) = r.
Proof. destruct r as [[a b]| | | |]; cbn; auto. now rewrite !mirror_invol. Qed.

Lemma tail_iff name r : tail name = r <-> tail_spec name r.
Proof.
  rewrite tail_mirror. split.
  - intros <-. apply tail_spec_mirror. apply head_correct.
  - intro S. apply tail_spec_mirror_inv in S. apply head_iff in S. rewrite S. apply omirror_invol.
Qed.

(* ---- components ---- *)
Lemma qname_cons c cs : cs <> [] -> qname (c :: cs) = c ++ sep ++ qname cs.
Proof. destruct cs; [ccong|reflexivity]. Qed.

Lemma qname_nonempty cs : cs <> [] -> Forall component cs -> qname cs <> [].
Proof.
  intros N F. destruct F as [|c cs [Hc _] F]; [ccong|]. intro E.
  destruct cs; cbn in E; [contradiction|]. apply app_eq_nil in E as [? _]. contradiction.
Qed.

Lemma head_qname c cs : Forall component (c :: cs) -> head (qname (c :: cs)) = Ok (c, qname cs).
Proof.
  intro F. inversion F as [|? ? (Hc & L & T) F']; subst. apply head_iff. cbn. repeat split; auto.
  destruct cs as [|c' cs]; [right; auto|left; reflexivity].
Qed.

Lemma qname_app cs c : cs <> [] -> qname (cs ++ [c]) = qname cs ++ sep ++ c.
Proof.
  induction cs as [|a cs IH]; intro N; [ccong|].
  destruct cs as [|b cs]; [reflexivity|].
  change ((a :: b :: cs) ++ [c]) with (a :: (b :: cs) ++ [c]).
  rewrite (qname_cons a ((b :: cs) ++ [c])) by discriminate.
  rewrite IH by discriminate. rewrite (qname_cons a (b :: cs)) by discriminate. now rewrite <- !app_assoc.
Qed.

Lemma tail_qname cs c : Forall component (cs ++ [c]) -> tail (qname (cs ++ [c])) = Ok (c, qname cs).
Proof.
  intro F. apply Forall_app in F as [F Fc]. inversion Fc as [|? ? (Hc & L & T) _]; subst.
  apply tail_iff. cbn. repeat split; auto.
  - intro X. apply T. now apply toplevel_r_balanced.
  - destruct cs as [|a cs]; [right; auto|left; now apply qname_app].
Qed.

(* ---- consequences on join ---- *)
Lemma head_join name h t : head name = Ok (h, t) -> h <> [] -> t <> [] -> join h t = name.
Proof.
  intros E Hh Ht. apply head_iff in E. cbn in E. destruct E as (_ & _ & [->|[_ ->]]); [|ccong].
  destruct h; [ccong|reflexivity].
Qed.

Lemma tail_join name h t : tail name = Ok (t, h) -> h <> [] -> join h t = name.
Proof.
  intros E Hh. apply tail_iff in E. cbn in E. destruct E as (_ & _ & [->|[_ ->]]); [|ccong].
  destruct h; [ccong|reflexivity].
Qed.

Lemma join_head c cs : Forall component (c :: cs) -> cs <> [] -> head (join c (qname cs)) = Ok (c, qname cs).
Proof.
  intros F N. inversion F as [|? ? (Hc & _) _]; subst.
  rewrite <- (head_qname c cs F). f_equal. rewrite qname_cons by auto. destruct c; [ccong|reflexivity].
Qed.

Lemma join_tail cs c : Forall component (cs ++ [c]) -> cs <> [] -> tail (join (qname cs) c) = Ok (c, qname cs).
Proof.
  intros F N. rewrite <- (tail_qname cs c F). f_equal. rewrite qname_app by auto.
  apply Forall_app in F as [F _]. pose proof (qname_nonempty cs N F). destruct (qname cs); [ccong|reflexivity].
Qed.

(* a bracketed region is never split *)
Lemma head_bracket_kept name h t p q : head name = Ok (h, t) ->
  name = p ++ sep ++ q -> level p <> 0 -> h <> p.
Proof. intros E _ L ->. apply head_iff in E. cbn in E. tauto. Qed.

Lemma head_progress name h t : head name = Ok (h, t) -> t <> [] -> (length t < length name)%nat.
Proof.
  intros E Ht. apply head_iff in E. cbn in E. destruct E as (_ & _ & [->|[_ ->]]); [|ccong].
  rewrite !app_length. cbn. lia.
Qed.
Lemma tail_progress name h t : tail name = Ok (t, h) -> h <> [] -> (length h < length name)%nat.
Proof.
  intros E Ht. apply tail_iff in E. cbn in E. destruct E as (_ & _ & [->|[_ ->]]); [|ccong].
  rewrite !app_length. cbn. lia.
Qed.
Lemma head_total name : (exists h t, head name = Ok (h, t)) \/ head name = Abort.
Proof. pose proof (head_correct name) as C. destruct (head name) as [[h t]| | | |]; cbn in C; try tauto; eauto. Qed.
Lemma tail_total name : (exists h t, tail name = Ok (t, h)) \/ tail name = Abort.
Proof.
  pose proof (proj1 (tail_iff name _) eq_refl) as C.
  destruct (tail name) as [[h t]| | | |]; cbn in C; try tauto; eauto.
Qed.
