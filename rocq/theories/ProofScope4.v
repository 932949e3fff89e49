(* ProofScope4.v - queries, listings, histories *)
From Coq Require String.
Import String.StringSyntax.
From Verif Require Import Base ModelCore ProofMatch ModelScope SpecScope ProofScope1 ProofScope2 ProofScope3.
Local Open Scope outcome_scope.

(* an inner component of the name is a registered type *)
Definition through_type (S : sheap) (x0 cs : list str) : Prop :=
  exists c1 d c2, cs = c1 ++ d :: c2 /\ vtype S (x0 ++ c1) d.

Lemma hasType_views S : wf_scopes S -> forall name cs c, Splits name (cs ++ [c]) -> forall this x0,
  walk S 0 x0 = Some this -> forall n, length name < n ->
  (through_type S x0 cs /\ hasType_f n S this name = Abort) \/
  (~ through_type S x0 cs /\ vtype S (x0 ++ cs) c /\ hasType_f n S this name = Ok true) \/
  (~ through_type S x0 cs /\ ~ vtype S (x0 ++ cs) c /\ hasType_f n S this name = Ok false).
Proof.
  intros W name cs. revert name. induction cs as [|h cs IH]; intros name c Sp this x0 Hx n Ln;
    (destruct n as [|n]; [lia|]); cbn [hasType_f];
    destruct (lt_sget S this (walk_lt _ _ _ W Hx)) as (s & Es).
  - cbn in Sp. inversion Sp as [? ? Hh|? ? t ? Hh Ht Hs]; subst; [|exfalso; exact (Splits_nonempty _ _ Hs eq_refl)].
    rewrite Hh. cbn [bind]. rewrite Es, app_nil_r.
    assert (NB : ~ through_type S x0 []) by (intros (c1 & d & c2 & E & _); destruct c1; discriminate).
    rewrite (vtype_at _ _ c _ _ Hx Es). right.
    destruct (afind c (s_types s)) eqn:E; [left|right]; repeat split; auto.
    + eapply afind_Some_key; eauto.
    + now apply afind_None in E.
  - cbn [app] in Sp. inversion Sp as [? ? Hh E|? ? t ? Hh Ht Hs]; subst.
    { destruct cs; discriminate. }
    rewrite Hh. cbn [bind]. rewrite Es.
    destruct (afind h (s_types s)) eqn:Et.
    { left. rewrite match_nonempty by auto. split; auto. exists [], h, cs. split; auto. rewrite app_nil_r.
      rewrite (vtype_at _ _ _ _ _ Hx Es). eapply afind_Some_key; eauto. }
    rewrite match_nonempty by auto.
    assert (TT : forall S' , S' = S -> (through_type S x0 (h :: cs) <-> through_type S (x0 ++ [h]) cs)).
    { intros _ _. split.
      - intros (c1 & d & c2 & E & Hv). destruct c1 as [|h' c1].
        + injection E as <- <-. rewrite app_nil_r in Hv. apply (vtype_at _ _ _ _ _ Hx Es) in Hv.
          apply afind_None in Et. contradiction.
        + injection E as <- ->. exists c1, d, c2. split; auto. now rewrite <- app_assoc.
      - intros (c1 & d & c2 & -> & Hv). exists (h :: c1), d, c2. split; auto. now rewrite <- app_assoc in Hv. }
    specialize (TT S eq_refl).
    assert (EQ : x0 ++ h :: cs = (x0 ++ [h]) ++ cs) by now rewrite <- app_assoc.
    destruct (afind h (s_scopes s)) as [p|] eqn:Ep.
    + destruct (IH t c Hs p (x0 ++ [h])) with (n := n) as [(A & B)|[(A & B & C)|(A & B & C)]].
      * apply walk_snoc. eauto.
      * pose proof (head_progress _ _ _ Hh Ht). lia.
      * left. rewrite TT. auto.
      * right. left. rewrite TT, EQ. auto.
      * right. right. rewrite TT, EQ. auto.
    + right. right. assert (NW : forall y, walk S 0 (x0 ++ h :: y) = None).
      { intro y. rewrite walk_app, Hx. cbn [walk]. now rewrite Es, Ep. }
      split; [|split; auto].
      * rewrite TT. intros (c1 & d & c2 & -> & q & sq & Ew & _). rewrite <- app_assoc in Ew. cbn [app] in Ew. rewrite NW in Ew. discriminate.
      * intros (q & sq & Ew & _). rewrite NW in Ew. discriminate.
Qed.

(* type(name): succeeds only for registered names, and asks the registry for the
   full qualified name *)
Lemma stype_views load S : wf_scopes S -> forall name cs c, Splits name (cs ++ [c]) -> forall this x0,
  walk S 0 x0 = Some this -> forall n, length name < n -> Forall component x0 -> Forall component (cs ++ [c]) ->
  ~ through_type S x0 cs ->
  (~ vtype S (x0 ++ cs) c -> stype_f n load S this name = Abort) /\
  (vtype S (x0 ++ cs) c -> exists p s, walk S 0 (x0 ++ cs) = Some p /\ sget S p = Some s /\
     exists cached, afind c (s_types s) = Some cached /\
     match cached with
     | Some ty => stype_f n load S this name = Ok (S, ty)
     | None => stype_f n load S this name =
         bind (load (qname (x0 ++ cs ++ [c])))
          (fun ty => Ok (supd S p (set_types s (aset c (Some ty) (s_types s))), ty))
     end).
Proof.
  intros W name cs. revert name. induction cs as [|h cs IH]; intros name c Sp this x0 Hx n Ln F0 F NT;
    (destruct n as [|n]; [lia|]); cbn [stype_f];
    destruct (lt_sget S this (walk_lt _ _ _ W Hx)) as (s & Es).
  - cbn in Sp. inversion Sp as [? ? Hh|? ? t ? Hh Ht Hs]; subst; [|exfalso; exact (Splits_nonempty _ _ Hs eq_refl)].
    rewrite Hh. cbn [bind]. rewrite Es, app_nil_r. rewrite (vtype_at _ _ c _ _ Hx Es).
    destruct (afind c (s_types s)) as [cached|] eqn:E; split; intro HV.
    + exfalso. apply HV. eapply afind_Some_key; eauto.
    + exists this, s. split; auto. split; auto. exists cached. split; auto.
      destruct cached as [ty|]; [reflexivity|].
      unfold scope_id. rewrite (scope_id_path S W x0 this F0 Hx (Datatypes.S (length S)))
        by (pose proof (walk_lt _ _ _ W Hx); lia). cbn [bind].
      assert (J : join (qname x0) c = qname (x0 ++ [c])).
      { destruct x0 as [|d x0]; [reflexivity|]. rewrite qname_app by discriminate.
        assert (Q : qname (d :: x0) <> []) by (apply qname_nonempty; [discriminate|auto]).
        unfold join. destruct (qname (d :: x0)); [congruence|reflexivity]. }
      rewrite J. cbn [app]. destruct (load (qname (x0 ++ [c]))); reflexivity.
    + reflexivity.
    + apply afind_None in E. contradiction.
  - cbn [app] in Sp, F. inversion Sp as [? ? Hh E|? ? t ? Hh Ht Hs]; subst.
    { destruct cs; discriminate. }
    rewrite Hh. cbn [bind]. rewrite Es.
    destruct (afind h (s_types s)) eqn:Et.
    { exfalso. apply NT. exists [], h, cs. split; auto. rewrite app_nil_r.
      rewrite (vtype_at _ _ _ _ _ Hx Es). eapply afind_Some_key; eauto. }
    rewrite match_nonempty by auto.
    assert (EQ : x0 ++ h :: cs = (x0 ++ [h]) ++ cs) by now rewrite <- app_assoc.
    destruct (afind h (s_scopes s)) as [p|] eqn:Ep.
    + inversion F as [|? ? Fh F']; subst.
      destruct (IH t c Hs p (x0 ++ [h])) with (n := n) as (A & B); auto.
      * apply walk_snoc. eauto.
      * pose proof (head_progress _ _ _ Hh Ht). lia.
      * apply Forall_app. auto.
      * intros (c1 & d & c2 & -> & Hv). apply NT. exists (h :: c1), d, c2. split; auto. now rewrite <- app_assoc in Hv.
      * assert (EQ2 : x0 ++ (h :: cs) ++ [c] = (x0 ++ [h]) ++ cs ++ [c]) by (rewrite <- !app_assoc; reflexivity).
        rewrite EQ2, EQ. split; [exact A|exact B].
    + assert (NW : forall y, walk S 0 (x0 ++ h :: y) = None).
      { intro y. rewrite walk_app, Hx. cbn [walk]. now rewrite Es, Ep. }
      split; [reflexivity|]. intros (q & sq & Ew & _). rewrite NW in Ew. discriminate.
Qed.

(* type(name) through a registered type never returns *)
Lemma stype_through load S : wf_scopes S -> forall name cs c, Splits name (cs ++ [c]) -> forall this x0,
  walk S 0 x0 = Some this -> forall n, length name < n -> through_type S x0 cs ->
  forall r, stype_f n load S this name <> Ok r.
Proof.
  intros W name cs. revert name. induction cs as [|h cs IH]; intros name c Sp this x0 Hx n Ln TT r;
    (destruct n as [|n]; [lia|]); cbn [stype_f];
    destruct (lt_sget S this (walk_lt _ _ _ W Hx)) as (s & Es).
  - exfalso. destruct TT as (c1 & d & c2 & E & _). destruct c1; discriminate.
  - cbn [app] in Sp. inversion Sp as [? ? Hh E|? ? t ? Hh Ht Hs]; subst.
    { destruct cs; discriminate. }
    rewrite Hh. cbn [bind]. rewrite Es.
    destruct (afind h (s_types s)) as [cached|] eqn:Et.
    { intro E. apply bind_Ok in E as ((S1 & ty) & _ & E). rewrite match_nonempty in E by auto. discriminate. }
    rewrite match_nonempty by auto.
    destruct (afind h (s_scopes s)) as [p|] eqn:Ep; [|discriminate].
    apply (IH t c Hs p (x0 ++ [h])).
    + apply walk_snoc. eauto.
    + pose proof (head_progress _ _ _ Hh Ht). lia.
    + destruct TT as (c1 & d & c2 & E & Hv). destruct c1 as [|h' c1].
      * injection E as <- <-. rewrite app_nil_r in Hv. apply (vtype_at _ _ _ _ _ Hx Es) in Hv.
        apply afind_None in Et. contradiction.
      * injection E as <- ->. exists c1, d, c2. split; auto. now rewrite <- app_assoc.
Qed.

(* type() only fills in one missing answer *)
Lemma stype_shape load : forall n S this name S' ty, stype_f n load S this name = Ok (S', ty) ->
  S' = S \/ exists p s c t, sget S p = Some s /\ afind c (s_types s) = Some None /\
    S' = supd S p (set_types s (aset c (Some t) (s_types s))).
Proof.
  induction n as [|n IH]; intros S this name S' ty E; cbn [stype_f] in E; [discriminate|].
  apply bind_Ok in E as ((h & t) & Hh & E). destruct (sget S this) as [s|] eqn:Es; [|discriminate].
  destruct (afind h (s_types s)) as [[ty0|]|] eqn:Et.
  - apply bind_Ok in E as ((S1 & ty1) & E1 & E). injection E1 as <- <-. destruct t; [|discriminate]. injection E as <- _. auto.
  - apply bind_Ok in E as ((S1 & ty1) & E1 & E). apply bind_Ok in E1 as (id & _ & E1). apply bind_Ok in E1 as (ty2 & _ & E1).
    injection E1 as <- <-. destruct t; [|discriminate]. injection E as <- _. right. exists this, s, h, ty2. auto.
  - destruct t; [discriminate|]. destruct (afind h (s_scopes s)); [|discriminate]. eapply IH; eauto.
Qed.

(* ---- the lazily loaded types ---- *)
Definition cached (S : sheap) (i : sptr) (c : str) (t : tptr) : Prop :=
  exists s, sget S i = Some s /\ afind c (s_types s) = Some (Some t).
Definition keeps (S S' : sheap) : Prop := forall i c t, cached S' i c t <-> cached S i c t.
Lemma keeps_refl S : keeps S S. Proof. intros i c t. tauto. Qed.
Lemma keeps_trans A B C : keeps A B -> keeps B C -> keeps A C.
Proof. intros H1 H2 i c t. rewrite (H2 i c t). apply H1. Qed.
Lemma ext_keeps S S' x0 cs : ext S S' x0 cs -> keeps S S'.
Proof.
  intros X i c t. split.
  - intros (s & Es & Ec). destruct (Nat.lt_ge_cases i (length S)) as [L|L].
    + destruct (lt_sget S i L) as (s0 & E0). destruct (e_data _ _ _ _ X i s0 E0) as (s1 & Es1 & _ & _ & Ht & _).
      exists s0. split; auto. congruence.
    + destruct (e_empty _ _ _ _ X i s L Es) as (Ht & _). rewrite Ht in Ec. discriminate.
  - intros (s & Es & Ec). destruct (e_data _ _ _ _ X i s Es) as (s1 & Es1 & _ & _ & Ht & _).
    exists s1. split; auto. congruence.
Qed.
Lemma scope_keeps name cs S this x0 S' p : Splits name cs -> wf_scopes S -> walk S 0 x0 = Some this ->
  scope S this name = Ok (S', p) -> keeps S S'.
Proof.
  intros Sp W Hx E. destruct (scope_ext name cs Sp S this x0 W Hx (Datatypes.S (length name))) as (S2 & p2 & E2 & X & _); [lia|].
  unfold scope in E. rewrite E2 in E. injection E as <- <-. eapply ext_keeps; eauto.
Qed.
Lemma supd_keeps S p s s' : sget S p = Some s ->
  (forall c t, afind c (s_types s') = Some (Some t) <-> afind c (s_types s) = Some (Some t)) -> keeps S (supd S p s').
Proof.
  intros E H i c t. unfold cached. destruct (Nat.eq_dec i p) as [->|N].
  - rewrite (sget_supd_same _ _ _ _ E), E. split; intros (s0 & E0 & Ec); injection E0 as <-; eexists; (split; [reflexivity|]); now apply H.
  - rewrite sget_supd_other by auto. tauto.
Qed.
Lemma afind_snoc_None {V} c (m : list (str * option V)) d t : afind c (m ++ [(d, None)]) = Some (Some t) <-> afind c m = Some (Some t).
Proof.
  induction m as [|(k & v) m IH]; cbn [app afind].
  - destruct (str_eqb c d); split; congruence.
  - destruct (str_eqb c k); auto. tauto.
Qed.
Lemma addType_keeps : forall name cs, Splits name cs -> forall S this x0, wf_scopes S -> walk S 0 x0 = Some this ->
  forall n S', addType_f n S this name = Ok S' -> keeps S S'.
Proof.
  intros name cs Sp. induction Sp as [name c Hh|name h t cs Hh Ht Hs IH]; intros S this x0 W Hx n S' E;
    (destruct n as [|n]; [discriminate|]); cbn [addType_f] in E; rewrite Hh in E; cbn [bind] in E;
    destruct (lt_sget S this (walk_lt _ _ _ W Hx)) as (s & Es); rewrite Es in E.
  - injection E as <-. destruct (ahas c (s_types s)); [apply keeps_refl|]. apply (supd_keeps S this s); auto.
    intros d t. cbn. apply afind_snoc_None.
  - rewrite match_nonempty in E by auto. destruct (ahas h (s_types s)); [discriminate|]. destruct (ahas h (s_fns s)); [discriminate|].
    apply bind_Ok in E as ((S1 & p1) & E1 & E).
    assert (Sh : Splits h [h]) by (apply Sp_last; eapply head_again; eauto).
    destruct (scope_views h [h] S this x0 Sh W Hx) as (S1' & p1' & E1' & W1 & R1 & _).
    pose proof E1 as E2. rewrite E1' in E1. injection E1 as <- <-.
    eapply keeps_trans; [eapply (scope_keeps h); eauto|]. eapply IH; eauto.
Qed.
Lemma saddFunction_keeps H f name cs c S this x0 n S' : FSplits name cs c -> wf_scopes S -> walk S 0 x0 = Some this ->
  saddFunction_f n H S this name f = Ok S' -> keeps S S'.
Proof.
  intros (t & Ht & D) W Hx E. destruct n as [|n]; [discriminate|]. cbn [saddFunction_f] in E. rewrite Ht in E. cbn [bind] in E.
  assert (LAST : forall S p S', (do os <- Ok tt; Ok os) = Ok tt -> match sget S p with None => UB | Some s =>
     do os <- overloads_add H (match afind c (s_fns s) with Some o => o | None => [] end) f;
     Ok (supd S p (set_sfns s (aset c os (s_fns s)))) end = Ok S' -> keeps S S').
  { clear. intros S p S' _ E. destruct (sget S p) as [s|] eqn:Es; [|discriminate]. apply bind_Ok in E as (os & _ & E).
    injection E as <-. apply (supd_keeps S p s); auto. intros; reflexivity. }
  destruct D as [(-> & ->)|(Nt & Sp)].
  - eapply LAST; [reflexivity|]. exact E.
  - rewrite match_nonempty in E by auto. apply bind_Ok in E as ((S1 & p1) & E1 & E).
    eapply keeps_trans; [eapply scope_keeps; eauto|].
    destruct n as [|n]; [discriminate|]. cbn [saddFunction_f] in E. rewrite (tail_again _ _ _ Ht) in E. cbn [bind] in E.
    eapply LAST; [reflexivity|]. exact E.
Qed.

Lemma vtype_dec S x c : vtype S x c \/ ~ vtype S x c.
Proof.
  unfold vtype. destruct (walk S 0 x) as [p|]; [|right; intros (p & s & E & _); discriminate].
  destruct (sget S p) as [s|] eqn:Es; [|right; intros (q & s & E & E2 & _); congruence].
  destruct (in_dec str_dec c (map fst (s_types s))); [left|right].
  - exists p, s. auto.
  - intros (q & s1 & E & E2 & H). injection E as <-. congruence.
Qed.
(* seen from the global scope *)
Definition vcached (S : sheap) (x : list str) (c : str) (t : tptr) : Prop := exists p, walk S 0 x = Some p /\ cached S p c t.
Lemma keeps_vcached S S' : wf_scopes S -> wf_scopes S' -> (forall x q, walk S 0 x = Some q -> walk S' 0 x = Some q) ->
  keeps S S' -> forall x c t, vcached S' x c t <-> vcached S x c t.
Proof.
  intros W W' M K x c t. split.
  - intros (p & Hp & Hc). apply K in Hc. pose proof Hc as (s & Es & _).
    destruct (path_exists S W (Datatypes.S p) p) as (y & Hy); [lia|eapply sget_lt; eauto|].
    assert (x = y) by (eapply path_unique; [exact W'|exact Hp|now apply M]). subst y. exists p. auto.
  - intros (p & Hp & Hc). exists p. split; [now apply M|now apply K].
Qed.

(* hasFunction / function *)
Lemma shasFunction_views S name cs c this x0 n : FSplits name cs c -> wf_scopes S -> walk S 0 x0 = Some this -> 1 < n ->
  (~ vscope S (x0 ++ cs) /\ shasFunction_f n S this name = Abort) \/
  (vscope S (x0 ++ cs) /\ (exists os, vfn S (x0 ++ cs) c os) /\ shasFunction_f n S this name = Ok true) \/
  (vscope S (x0 ++ cs) /\ (forall os, ~ vfn S (x0 ++ cs) c os) /\ shasFunction_f n S this name = Ok false).
Proof.
  intros (t & Ht & D) W Hx Ln. destruct n as [|n]; [lia|]. cbn [shasFunction_f]. rewrite Ht. cbn [bind].
  assert (LAST : forall p, walk S 0 (x0 ++ cs) = Some p ->
     exists s, sget S p = Some s /\ ((exists os, vfn S (x0 ++ cs) c os) /\ ahas c (s_fns s) = true \/
       (forall os, ~ vfn S (x0 ++ cs) c os) /\ ahas c (s_fns s) = false)).
  { intros p Ep. destruct (lt_sget S p (walk_lt _ _ _ W Ep)) as (s & Es). exists s. split; auto.
    unfold ahas. destruct (afind c (s_fns s)) as [os|] eqn:E; [left|right]; split; auto.
    - exists os. now rewrite (vfn_at _ _ _ _ _ _ Ep Es).
    - intro os. rewrite (vfn_at _ _ _ _ _ _ Ep Es). congruence. }
  destruct D as [(-> & ->)|(Nt & Sp)].
  - rewrite app_nil_r in *. right. destruct (LAST _ Hx) as (s & Es & [(A & B)|(A & B)]); rewrite Es, B; [left|right];
      (split; [exists this; auto|auto]).
  - destruct t as [|a t]; [congruence|].
    assert (HW : walk S 0 (x0 ++ cs) = walk S this cs) by now rewrite walk_app, Hx.
    unfold scope_c. rewrite (scope_c_walk S W _ _ Sp this (walk_lt _ _ _ W Hx)) by lia.
    destruct (walk S this cs) as [p|] eqn:Ep; cbn [bind].
    + destruct n as [|n]; [lia|]. cbn [shasFunction_f]. rewrite (tail_again _ _ _ Ht). cbn [bind]. right.
      destruct (LAST _ HW) as (s & Es & [(A & B)|(A & B)]); rewrite Es, B; [left|right]; (split; [exists p; auto|auto]).
    + left. split; auto. intros (q & Eq). congruence.
Qed.

Lemma sfunction_views S name cs c this x0 n : FSplits name cs c -> wf_scopes S -> walk S 0 x0 = Some this -> 1 < n ->
  (forall os, vfn S (x0 ++ cs) c os -> exists S', sfunction_f n S this name = Ok (S', os) /\ wf_scopes S' /\
      (forall x q, walk S 0 x = Some q -> walk S' 0 x = Some q) /\
      (forall x, vscope S' x <-> vscope S x) /\ (forall x d, vtype S' x d <-> vtype S x d) /\
      (forall x d os', vfn S' x d os' <-> vfn S x d os')) /\
  ((forall os, ~ vfn S (x0 ++ cs) c os) -> sfunction_f n S this name = Abort).
Proof.
  intros (t & Ht & D) W Hx Ln. destruct n as [|n]; [lia|]. cbn [sfunction_f]. rewrite Ht. cbn [bind].
  destruct D as [(-> & ->)|(Nt & Sp)].
  - rewrite app_nil_r in *. destruct (lt_sget S this (walk_lt _ _ _ W Hx)) as (s & Es). rewrite Es. split.
    + intros os Ho. apply (vfn_at _ _ _ _ _ _ Hx Es) in Ho. rewrite Ho. exists S. split; auto. split; auto. split; auto.
      split; [tauto|]. split; tauto.
    + intro Hn. destruct (afind c (s_fns s)) as [os|] eqn:E; auto. exfalso. apply (Hn os).
      now rewrite (vfn_at _ _ _ _ _ _ Hx Es).
  - destruct t as [|a t]; [congruence|].
    destruct (scope_views (a :: t) cs S this x0 Sp W Hx) as (S1 & p1 & E1 & W1 & R1 & M1 & V1 & T1 & F1).
    rewrite E1. cbn [bind]. destruct n as [|n]; [lia|]. cbn [sfunction_f]. rewrite (tail_again _ _ _ Ht). cbn [bind].
    destruct (lt_sget S1 p1 (walk_lt _ _ _ W1 R1)) as (s & Es). rewrite Es. split.
    + intros os Ho. assert (Ho1 : vfn S1 (x0 ++ cs) c os) by now apply F1.
      apply (vfn_at _ _ _ _ _ _ R1 Es) in Ho1. rewrite Ho1. exists S1. split; auto. split; auto. split; auto.
      split; [|split; auto]. intro x. rewrite V1. split; auto. intros [?|(c1 & (z & ->) & ->)]; auto.
      destruct Ho as (q & sq & Eq & _). rewrite app_assoc in Eq. destruct (walk_prefix _ _ _ _ Eq) as (q' & ?). exists q'; auto.
    + intro Hn. destruct (afind c (s_fns s)) as [os|] eqn:E; auto. exfalso. apply (Hn os). apply F1.
      now rewrite (vfn_at _ _ _ _ _ _ R1 Es).
Qed.

(* ---- listings ---- *)
Lemma NoDup_app_disj {A} (l m : list A) : NoDup l -> NoDup m -> (forall x, In x l -> In x m -> False) -> NoDup (l ++ m).
Proof.
  intros Nl Nm D. induction Nl as [|x l Hx Nl IH]; cbn; auto. constructor.
  - rewrite in_app_iff. intros [?|?]; [auto|]. apply (D x); [now left|auto].
  - apply IH. intros y Hy. apply D. now right.
Qed.
Lemma NoDup_map_in {A B} (f : A -> B) l : NoDup l -> (forall x y, In x l -> In y l -> f x = f y -> x = y) -> NoDup (map f l).
Proof.
  intros Nl D. induction Nl as [|x l Hx Nl IH]; cbn; constructor.
  - intro Hi. apply in_map_iff in Hi as (y & E & Hy). apply Hx. rewrite (D x y); auto; [now left|now right].
  - apply IH. intros a b Ha Hb. apply D; now right.
Qed.
(* the keys of the tree are components of names *)
Definition comp_keys (S : sheap) : Prop := forall i s, sget S i = Some s ->
  Forall component (map fst (s_scopes s)) /\ Forall component (map fst (s_types s)) /\ Forall component (map fst (s_fns s)).

Lemma qname_inj cs ds : Forall component cs -> Forall component ds -> qname cs = qname ds -> cs = ds.
Proof.
  revert ds. induction cs as [|c cs IH]; intros [|d ds] Fc Fd E; auto.
  - exfalso. symmetry in E. revert E. apply qname_nonempty; [discriminate|auto].
  - exfalso. revert E. apply qname_nonempty; [discriminate|auto].
  - pose proof (head_qname c cs Fc) as H1. pose proof (head_qname d ds Fd) as H2. rewrite E, H2 in H1.
    injection H1 as -> E'. f_equal. inversion Fc; inversion Fd; subst. apply IH; auto.
Qed.

(* generic listing: own names of a scope object *)
Section Listing.
  Variable own : scoperec -> list str.
  Fixpoint list_f (n : nat) (S : sheap) (this : sptr) : outcome (list str) :=
    match n with
    | O => OutOfFuel
    | Datatypes.S n' =>
      match sget S this with
      | None => UB
      | Some s =>
        (fix go (l : list (str * sptr)) (acc : list str) : outcome (list str) :=
           match l with
           | [] => Ok acc
           | (k, p) :: l' => do ts <- list_f n' S p; go l' (acc ++ map (join k) ts)
           end) (s_scopes s) (own s)
      end
    end.
  Definition list_go n' S := fix go (l : list (str * sptr)) (acc : list str) : outcome (list str) :=
           match l with
           | [] => Ok acc
           | (k, p) :: l' => do ts <- list_f n' S p; go l' (acc ++ map (join k) ts)
           end.

  Definition listed (S : sheap) (this : sptr) (l : list str) : Prop := NoDup l /\
    forall nm, In nm l <-> exists x c p s, walk S this x = Some p /\ sget S p = Some s /\ In c (own s) /\
       Forall component (x ++ [c]) /\ nm = qname (x ++ [c]).

  Variable S : sheap.
  Hypothesis W : wf_scopes S.
  Hypothesis CK : comp_keys S.
  Hypothesis CO : forall i s, sget S i = Some s -> Forall component (own s) /\ NoDup (own s).

  Lemma listing_ok : forall n this, this < length S -> length S - this < n ->
    exists l, list_f n S this = Ok l /\ listed S this l.
  Proof.
    induction n as [|n IH]; intros this L Ln; [lia|].
    cbn [list_f]. destruct (lt_sget S this L) as (s & Es). rewrite Es. fold (list_go n S).
    destruct (CO _ _ Es) as (CO1 & CO2). destruct (ws_keys S W _ _ Es) as (K1 & _ & _).
    destruct (CK _ _ Es) as (CK1 & _).
    (* loop invariant: l1 done, l2 to do *)
    assert (G : forall l2 l1 acc, s_scopes s = l1 ++ l2 -> NoDup acc ->
      (forall nm, In nm acc <-> (In nm (own s) \/ exists k q x c p sp, In (k, q) l1 /\ walk S q x = Some p /\ sget S p = Some sp /\
          In c (own sp) /\ Forall component (k :: x ++ [c]) /\ nm = qname (k :: x ++ [c]))) ->
      exists l, list_go n S l2 acc = Ok l /\ NoDup l /\
      (forall nm, In nm l <-> (In nm (own s) \/ exists k q x c p sp, In (k, q) (l1 ++ l2) /\ walk S q x = Some p /\ sget S p = Some sp /\
          In c (own sp) /\ Forall component (k :: x ++ [c]) /\ nm = qname (k :: x ++ [c])))).
    { induction l2 as [|(k & q) l2 IHl]; intros l1 acc Hs ND Hacc; cbn [list_go].
      - exists acc. rewrite app_nil_r. auto.
      - assert (Hkq : In (k, q) (s_scopes s)) by (rewrite Hs; apply in_app_iff; right; now left).
        destruct (ws_child S W _ _ _ _ Es Hkq) as (Lq & sq & Esq & _).
        pose proof (sget_lt _ _ _ Esq) as Lq'.
        destruct (IH q Lq' ltac:(lia)) as (lq & Eq & NDq & Hq). rewrite Eq. cbn [bind].
        assert (Ck : component k).
        { rewrite Forall_forall in CK1. apply CK1. apply in_map_iff. exists (k, q). auto. }
        assert (JQ : forall y, y <> [] -> Forall component y -> join k (qname y) = qname (k :: y)).
        { intros y Hy Fy. rewrite qname_cons by auto. unfold join. destruct Ck as (Hk & _). destruct k; [congruence|reflexivity]. }
        assert (HM : forall nm, In nm (map (join k) lq) <-> exists x c p sp, walk S q x = Some p /\ sget S p = Some sp /\
          In c (own sp) /\ Forall component (k :: x ++ [c]) /\ nm = qname (k :: x ++ [c])).
        { intro nm. rewrite in_map_iff. split.
          - intros (y & <- & Hy). apply Hq in Hy as (x & c & p & sp & H1 & H2 & H3 & H4 & ->).
            exists x, c, p, sp. repeat split; auto. apply JQ; auto. destruct x; discriminate.
          - intros (x & c & p & sp & H1 & H2 & H3 & H4 & ->). exists (qname (x ++ [c])).
            inversion H4; subst. split; [apply JQ; auto; destruct x; discriminate|].
            apply Hq. exists x, c, p, sp. auto. }
        destruct (IHl (l1 ++ [(k, q)]) (acc ++ map (join k) lq)) as (l & El & NDl & Hl).
        + rewrite <- app_assoc. exact Hs.
        + (* NoDup *)
          apply NoDup_app_disj; auto.
          * apply NoDup_map_in; auto.
            intros y y' Hy Hy' E. apply Hq in Hy as (x & c & p & sp & _ & _ & _ & H4 & ->).
            apply Hq in Hy' as (x' & c' & p' & sp' & _ & _ & _ & H4' & ->).
            rewrite !JQ in E by (auto; destruct x, x'; discriminate). apply qname_inj in E; auto. congruence.
          * intros nm H1 H2. apply HM in H2 as (x & c & p & sp & _ & _ & _ & F2 & ->). apply Hacc in H1 as [H1|H1].
            -- rewrite Forall_forall in CO1. pose proof (CO1 _ H1) as C1.
               assert (E : qname [qname (k :: x ++ [c])] = qname (k :: x ++ [c])) by reflexivity.
               apply qname_inj in E; auto. injection E as _ E. destruct x; discriminate.
            -- destruct H1 as (k' & q' & x' & c' & p' & sp' & Hin & _ & _ & _ & F1 & E). apply qname_inj in E; auto.
               injection E as -> _. rewrite Hs, map_app in K1. cbn in K1. apply NoDup_remove_2 in K1. apply K1.
               apply in_app_iff. left. apply in_map_iff. exists (k', q'). auto.
        + intro nm. rewrite in_app_iff, Hacc, HM. split.
          * intros [[?|(k' & q' & x & c & p & sp & Hin & R)]|(x & c & p & sp & R)]; auto; right.
            -- exists k', q', x, c, p, sp. split; auto. apply in_app_iff. auto.
            -- exists k, q, x, c, p, sp. split; auto. apply in_app_iff. right. now left.
          * intros [?|(k' & q' & x & c & p & sp & Hin & R)]; auto. apply in_app_iff in Hin as [Hin|[Hin|[]]].
            -- left. right. exists k', q', x, c, p, sp. auto.
            -- injection Hin as <- <-. right. exists x, c, p, sp. auto.
        + exists l. split; [exact El|]. split; auto. rewrite <- app_assoc in Hl. exact Hl. }
    destruct (G (s_scopes s) [] (own s) eq_refl CO2) as (l & El & NDl & Hl).
    { intro nm. split; auto. intros [?|(k & q & x & c & p & sp & [] & _)]; auto. }
    exists l. split; auto. split; auto. intro nm. rewrite Hl. cbn [app]. split.
    - intros [Hin|(k & q & x & c & p & sp & Hin & H1 & H2 & H3 & H4 & ->)].
      + exists [], nm, this, s. repeat split; auto. constructor; auto. rewrite Forall_forall in CO1. auto.
      + exists (k :: x), c, p, sp. split; [|auto]. cbn [walk]. rewrite Es.
        rewrite (In_afind_NoDup k q); auto.
    - intros (x & c & p & sp & H1 & H2 & H3 & H4 & ->). destruct x as [|k x].
      + left. cbn in H1. injection H1 as <-. assert (sp = s) by congruence; subst sp. auto.
      + right. cbn [walk] in H1. rewrite Es in H1. destruct (afind k (s_scopes s)) as [q|] eqn:Eq; [|discriminate].
        exists k, q, x, c, p, sp. split; [now apply afind_In|auto].
  Qed.
End Listing.

Definition own_types (s : scoperec) := map fst (s_types s).
Definition own_fns (s : scoperec) := map fst (s_fns s).

Lemma types_list S : forall n this, types_f n S this true = list_f own_types n S this.
Proof.
  induction n as [|n IH]; intro this; cbn [types_f list_f]; auto. destruct (sget S this) as [s|]; auto. cbn [negb].
  change (akeys (s_types s)) with (own_types s).
  generalize (own_types s). induction (s_scopes s) as [|(k & p) l IHl]; intro acc; auto. rewrite IH.
  destruct (list_f own_types n S p); cbn [bind]; auto.
Qed.
Lemma functions_list S : forall n this, sfunctions_f n S this true = list_f own_fns n S this.
Proof.
  induction n as [|n IH]; intro this; cbn [sfunctions_f list_f]; auto. destruct (sget S this) as [s|]; auto. cbn [negb].
  change (akeys (s_fns s)) with (own_fns s).
  generalize (own_fns s). induction (s_scopes s) as [|(k & p) l IHl]; intro acc; auto. rewrite IH.
  destruct (list_f own_fns n S p); cbn [bind]; auto.
Qed.

Lemma types_listing S x0 this : wf_scopes S -> comp_keys S -> walk S 0 x0 = Some this ->
  exists l, types S this true = Ok l /\ NoDup l /\ forall nm, In nm l <->
    exists x c, vtype S (x0 ++ x) c /\ Forall component (x ++ [c]) /\ nm = qname (x ++ [c]).
Proof.
  intros W CK Hx. unfold types. rewrite types_list.
  destruct (listing_ok own_types S W CK) with (n := Datatypes.S (length S)) (this := this) as (l & E & ND & Hl).
  - intros i s Es. split; [apply (CK _ _ Es)|apply (ws_keys S W _ _ Es)].
  - eapply walk_lt; eauto.
  - lia.
  - exists l. split; auto. split; auto. intro nm. rewrite Hl. split.
    + intros (x & c & p & s & H1 & H2 & H3 & H4 & ->). exists x, c. split; auto. exists p, s.
      split; auto. now rewrite walk_app, Hx.
    + intros (x & c & (p & s & H1 & H2 & H3) & H4 & ->). exists x, c, p, s. rewrite walk_app, Hx in H1. auto.
Qed.
Lemma functions_listing S x0 this : wf_scopes S -> comp_keys S -> walk S 0 x0 = Some this ->
  exists l, sfunctions S this true = Ok l /\ NoDup l /\ forall nm, In nm l <->
    exists x c os, vfn S (x0 ++ x) c os /\ Forall component (x ++ [c]) /\ nm = qname (x ++ [c]).
Proof.
  intros W CK Hx. unfold sfunctions. rewrite functions_list.
  destruct (listing_ok own_fns S W CK) with (n := Datatypes.S (length S)) (this := this) as (l & E & ND & Hl).
  - intros i s Es. split; [apply (CK _ _ Es)|apply (ws_keys S W _ _ Es)].
  - eapply walk_lt; eauto.
  - lia.
  - exists l. split; auto. split; auto. intro nm. rewrite Hl. split.
    + intros (x & c & p & s & H1 & H2 & H3 & H4 & ->). apply (In_akeys_afind c (s_fns s)) in H3 as (os & H3).
      exists x, c, os. split; auto. exists p, s. split; auto. now rewrite walk_app, Hx.
    + intros (x & c & os & (p & s & H1 & H2 & H3) & H4 & ->). exists x, c, p, s. rewrite walk_app, Hx in H1.
      split; auto. split; auto. split; auto. apply (afind_Some_key _ _ _ H3).
Qed.

(* ---- arbitrary histories keep the tree well formed ---- *)
Lemma sinit_wf : wf_scopes sinit.
Proof.
  constructor.
  - exists (newScope [] None). auto.
  - intros [|[|i]] s k j E Hin; cbn in E; try discriminate. injection E as <-. destruct Hin.
  - intros [|[|j]] sj E N; cbn in E; try discriminate. congruence.
  - intros [|[|i]] s E; cbn in E; try discriminate. injection E as <-. repeat split; constructor.
Qed.

Lemma addType_Splits : forall n S this name S', wf_scopes S -> addType_f n S this name = Ok S' ->
  this < length S /\ exists cs, Splits name cs.
Proof.
  induction n as [|n IH]; intros S this name S' W E; cbn [addType_f] in E; [discriminate|].
  apply bind_Ok in E as ((h & t) & Hh & E). destruct (sget S this) as [s|] eqn:Es; [|discriminate].
  split; [eapply sget_lt; eauto|].
  destruct t as [|a t]; [exists [h]; now apply Sp_last|].
  destruct (ahas h (s_types s)); [discriminate|]. destruct (ahas h (s_fns s)); [discriminate|].
  apply bind_Ok in E as ((S1 & p1) & E1 & E).
  destruct (path_exists S W (Datatypes.S this) this) as (x0 & Hx); [lia|eapply sget_lt; eauto|].
  destruct (scope_views h [h] S this x0) as (S1' & p1' & E1' & W1 & R1 & _); auto.
  { apply Sp_last. eapply head_again; eauto. }
  rewrite E1' in E1. injection E1 as <- <-.
  destruct (IH _ _ _ _ W1 E) as (_ & cs & Hs). exists (h :: cs). eapply Sp_cons; eauto. discriminate.
Qed.

Lemma snoc_of {A} (l : list A) : l <> [] -> exists l' x, l = l' ++ [x].
Proof. intro N. destruct (exists_last N) as (l' & x & E). eauto. Qed.

Lemma scope_step_wf_mono S op S' : wf_scopes S -> scope_step S op = Ok S' ->
  wf_scopes S' /\ forall x q, walk S 0 x = Some q -> walk S' 0 x = Some q.
Proof.
  intros W E. destruct op as [this name|this name|H this name f|this name|load this name]; cbn [scope_step] in E.
  - apply bind_Ok in E as ((S1 & p1) & E1 & E). injection E as ->. pose proof E1 as E1'. unfold scope in E1.
    assert (L : this < length S).
    { cbn [scope_f] in E1. apply bind_Ok in E1 as ((h & t) & Hh & E1).
      destruct (sget S this) eqn:Es; [eapply sget_lt; eauto|discriminate]. }
    destruct (scope_Splits S this L W _ _ _ _ E1) as (cs & Sp).
    destruct (path_exists S W (Datatypes.S this) this) as (x0 & Hx); auto.
    destruct (scope_views name cs S this x0 Sp W Hx) as (S1' & p1' & E2 & W1 & _ & M1 & _).
    rewrite E2 in E1'. injection E1' as <- <-. auto.
  - destruct (addType_Splits _ _ _ _ _ W E) as (L & cs & Sp).
    destruct (path_exists S W (Datatypes.S this) this) as (x0 & Hx); auto.
    destruct (snoc_of cs (Splits_nonempty _ _ Sp)) as (cs' & c & ->).
    destruct (addType_views _ _ _ Sp S this x0 W Hx (Datatypes.S (length name))) as [(_ & A)|(_ & S1 & A & W1 & M1 & _)]; [lia| |];
      unfold addType in E; rewrite E in A; [discriminate|]. injection A as ->. auto.
  - unfold saddFunction in E. cbn [saddFunction_f] in E. apply bind_Ok in E as ((h & t) & Ht & E).
    destruct t as [|a t].
    + destruct (sget S this) as [s|] eqn:Es; [|discriminate].
      destruct (path_exists S W (Datatypes.S this) this) as (x0 & Hx); [lia|eapply sget_lt; eauto|].
      apply bind_Ok in E as (os & Eo & E). injection E as <-. destruct (ws_keys S W _ _ Es) as (K1 & K2 & K3).
      split; [apply (supd_wf S this s); auto; apply (NoDup_akeys_aset h os (s_fns s)); auto|].
      intros x q. now rewrite (supd_walk S this s (set_sfns s (aset h os (s_fns s))) Es eq_refl).
    + apply bind_Ok in E as ((S1 & p1) & E1 & E).
      assert (L : this < length S).
      { unfold scope in E1. cbn [scope_f] in E1. apply bind_Ok in E1 as ((h' & t') & Hh & E1).
        destruct (sget S this) eqn:Es; [eapply sget_lt; eauto|discriminate]. }
      destruct (path_exists S W (Datatypes.S this) this) as (x0 & Hx); auto.
      destruct (scope_Splits S this L W _ _ _ _ E1) as (cs & Sp).
      destruct (scope_views (a :: t) cs S this x0 Sp W Hx) as (S1' & p1' & E2 & W1 & R1 & M1 & _).
      rewrite E2 in E1. injection E1 as <- <-.
      assert (Ln : 0 < length name).
      { pose proof (tail_progress name (a :: t) h Ht ltac:(discriminate)) as P. lia. }
      destruct (saddFunction_last H f S1' p1' (x0 ++ cs) h h (length name) W1 R1 (tail_again _ _ _ Ht) Ln)
        as (os0 & _ & [(os1 & S2 & _ & E3 & W2 & M2 & _)|(_ & B)]).
      * rewrite E in E3. injection E3 as ->. split; auto.
      * exfalso. exact (B _ E).
  - apply bind_Ok in E as ((S1 & os) & E1 & E). injection E as ->.
    unfold sfunction in E1. cbn [sfunction_f] in E1. apply bind_Ok in E1 as ((h & t) & Ht & E1).
    destruct t as [|a t].
    + destruct (sget S this) as [s|]; [|discriminate]. destruct (afind h (s_fns s)); [|discriminate]. injection E1 as <- _. auto.
    + apply bind_Ok in E1 as ((S2 & p2) & E2 & E1).
      assert (L : this < length S).
      { unfold scope in E2. cbn [scope_f] in E2. apply bind_Ok in E2 as ((h' & t') & Hh & E2).
        destruct (sget S this) eqn:Es; [eapply sget_lt; eauto|discriminate]. }
      destruct (path_exists S W (Datatypes.S this) this) as (x0 & Hx); auto.
      destruct (scope_Splits S this L W _ _ _ _ E2) as (cs & Sp).
      destruct (scope_views (a :: t) cs S this x0 Sp W Hx) as (S2' & p2' & E3 & W2 & R2 & M2 & _).
      rewrite E3 in E2. injection E2 as <- <-.
      destruct (length name); cbn [sfunction_f] in E1; [discriminate|]. rewrite (tail_again _ _ _ Ht) in E1. cbn [bind] in E1.
      destruct (sget S2' p2') as [s|]; [|discriminate]. destruct (afind h (s_fns s)); [|discriminate]. injection E1 as <- _. auto.
  - apply bind_Ok in E as ((S1 & ty) & E1 & E). injection E as ->.
    destruct (stype_shape _ _ _ _ _ _ _ E1) as [->|(p & s & c & t & Es & Ec & ->)]; [auto|].
    destruct (ws_keys S W _ _ Es) as (K1 & K2 & K3).
    split; [apply (supd_wf S p s); auto; apply (NoDup_akeys_aset c (Some t) (s_types s)); auto|].
    intros x q. now rewrite (supd_walk S p s (set_types s (aset c (Some t) (s_types s))) Es eq_refl).
Qed.

Lemma scope_step_wf S op S' : wf_scopes S -> scope_step S op = Ok S' -> wf_scopes S'.
Proof. intros W E. apply (scope_step_wf_mono S op S' W E). Qed.

Lemma scope_run_wf ops : forall S S', wf_scopes S -> scope_run S ops = Ok S' -> wf_scopes S'.
Proof.
  induction ops as [|op ops IH]; intros S S' W E; cbn [scope_run] in E; [congruence|].
  apply bind_Ok in E as (S1 & E1 & E). eapply IH; [|eauto]. eapply scope_step_wf; eauto.
Qed.

Lemma scope_run_mono ops : forall S S', wf_scopes S -> scope_run S ops = Ok S' ->
  forall x q, walk S 0 x = Some q -> walk S' 0 x = Some q.
Proof.
  induction ops as [|op ops IH]; intros S S' W E x q Hq; cbn [scope_run] in E; [congruence|].
  apply bind_Ok in E as (S1 & E1 & E). destruct (scope_step_wf_mono _ _ _ W E1) as (W1 & M1).
  eapply IH; [exact W1|exact E|]. auto.
Qed.

Lemma scope_run_app ops1 ops2 S : scope_run S (ops1 ++ ops2) = do S1 <- scope_run S ops1; scope_run S1 ops2.
Proof.
  revert S. induction ops1 as [|o ops1 IH]; intro S; cbn [scope_run app bind]; auto.
  destruct (scope_step S o); cbn [bind]; auto.
Qed.

(* ---- well formed histories: the tree is what was registered ---- *)
Record agrees (ops : list wop) (S : sheap) : Prop := {
  ag_wf : wf_scopes S;
  ag_scope : forall x, vscope S x <-> reg_scope ops x;
  ag_type : forall x c, vtype S x c <-> reg_type ops x c;
  ag_fn : forall x c os, vfn S x c os <-> os <> [] /\ os = reg_fns ops x c;
  ag_cache : forall x c t, vcached S x c t <-> first_lookup ops x c = Some t }.

Lemma reg_scope_app ops o x : reg_scope (ops ++ [o]) x <-> reg_scope ops x \/
  match o with WScope cs => prefix x cs | WType cs _ => prefix x cs | WFunction _ cs _ _ => prefix x cs | WLookup _ _ _ => False end.
Proof.
  unfold reg_scope. split.
  - intros [->|(o' & Hin & Hm)]; auto. apply in_app_iff in Hin as [Hin|[<-|[]]]; auto. left. right. exists o'. auto.
  - intros [[->|(o' & Hin & Hm)]|Hm]; auto; right.
    + exists o'. split; auto. apply in_app_iff. auto.
    + exists o. split; auto. apply in_app_iff. right. now left.
Qed.

Lemma reg_fns_app ops1 ops2 x c : reg_fns (ops1 ++ ops2) x c = reg_fns ops1 x c ++ reg_fns ops2 x c.
Proof.
  induction ops1 as [|o ops1 IH]; cbn [app reg_fns]; auto.
  destruct o; auto. destruct (list_eq_dec _ _ _); cbn; rewrite IH; auto.
Qed.

Lemma first_lookup_app ops1 ops2 x c : first_lookup (ops1 ++ ops2) x c =
  match first_lookup ops1 x c with Some t => Some t | None => first_lookup ops2 x c end.
Proof.
  induction ops1 as [|o ops1 IH]; cbn [app first_lookup]; auto. destruct o; auto.
  destruct (list_eq_dec _ _ _); auto. destruct (load _); auto.
Qed.
Lemma first_lookup_skip ops o x c : (forall load cs d, o <> WLookup load cs d) ->
  first_lookup (ops ++ [o]) x c = first_lookup ops x c.
Proof.
  intro N. rewrite first_lookup_app. destruct (first_lookup ops x c); auto.
  destruct o; auto. exfalso. exact (N _ _ _ eq_refl).
Qed.

Lemma app_snoc_inj {A} (x y : list A) c d : x ++ [c] = y ++ [d] <-> x = y /\ c = d.
Proof.
  split; [apply app_inj_tail|]. now intros (-> & ->).
Qed.

Lemma prefix_view S x0 cs (x : list str) : (exists c1, prefix c1 cs /\ x = x0 ++ c1) -> S = x0 -> x0 = [] -> prefix x cs.
Proof. intros (c1 & P & ->) _ ->. auto. Qed.

Lemma agrees_step ops o S S' : agrees ops S -> wop_ok o -> scope_step S (wop_op o) = Ok S' -> agrees (ops ++ [o]) S'.
Proof.
  intros [W As At Af Ac] Ho E.
  assert (W' : wf_scopes S') by (eapply scope_step_wf; eauto).
  assert (R0 : walk S 0 [] = Some 0) by reflexivity.
  pose proof (proj2 (scope_step_wf_mono _ _ _ W E)) as M0.
  assert (AC : keeps S S' -> (forall load cs d, o <> WLookup load cs d) ->
     forall x c t, vcached S' x c t <-> first_lookup (ops ++ [o]) x c = Some t).
  { intros K NL x c t. rewrite (keeps_vcached S S' W W' M0 K), first_lookup_skip by auto. apply Ac. }
  destruct o as [cs|cs c|H cs c f|load cs c]; cbn [wop_op scope_step wop_ok] in *.
  - destruct Ho as (N & F). apply bind_Ok in E as ((S1 & p1) & E1 & E). injection E as ->.
    destruct (scope_views (qname cs) cs S 0 [] (Splits_qname _ N F) W R0) as (S2 & p2 & E2 & _ & _ & _ & V & T & Fn).
    pose proof E2 as E2'. rewrite E2 in E1. injection E1 as -> _.
    constructor; auto; try (apply AC; [|discriminate]; eapply scope_keeps; [apply (Splits_qname _ N F)|exact W|exact R0|exact E2']).
    + intro x. rewrite V, As, reg_scope_app. split.
      * intros [?|(c1 & P & ->)]; auto.
      * intros [?|P]; auto. right. exists x. auto.
    + intros x d. rewrite T, At. unfold reg_type. rewrite in_app_iff. cbn. intuition discriminate.
    + intros x d os. rewrite Fn, Af, reg_fns_app. cbn. now rewrite app_nil_r.
  - assert (N : cs ++ [c] <> []) by (destruct cs; discriminate).
    destruct (addType_views _ _ _ (Splits_qname _ N Ho) S 0 [] W R0 (Datatypes.S (length (qname (cs ++ [c]))))) as [(_ & A)|(_ & S2 & A & _ & _ & V & T & Fn)];
      [lia| |]; unfold addType in E; pose proof E as E'; rewrite E in A; [discriminate|]. injection A as ->.
    constructor; auto; try (apply AC; [|discriminate]; eapply addType_keeps; [apply (Splits_qname _ N Ho)|exact W|exact R0|exact E']).
    + intro x. rewrite V, As, reg_scope_app. split.
      * intros [?|(c1 & P & ->)]; auto.
      * intros [?|P]; auto. right. exists x. auto.
    + intros x d. rewrite T, At. unfold reg_type. rewrite in_app_iff. cbn. intuition congruence.
    + intros x d os. rewrite Fn, Af, reg_fns_app. cbn. now rewrite app_nil_r.
  - assert (N : qname (cs ++ [c]) <> []) by (apply qname_nonempty; auto; destruct cs; discriminate).
    assert (Ln : 1 < Datatypes.S (length (qname (cs ++ [c])))) by (destruct (qname (cs ++ [c])); [congruence|cbn; lia]).
    destruct (saddFunction_views H f _ cs c S 0 [] _ (FSplits_qname _ _ Ho) W R0 Ln) as (os0 & A0 & [(os1 & S2 & Eo & A & _ & _ & V & T & Fn)|(_ & B)]).
    2: { exfalso. exact (B _ E). }
    unfold saddFunction in E. pose proof E as E'. rewrite E in A. injection A as <-. cbn [app] in A0, Fn.
    apply overloads_add_app in Eo. subst os1.
    assert (E0 : os0 = reg_fns ops cs c).
    { destruct A0 as [A0|(-> & A0)]; [now apply Af in A0|]. destruct (reg_fns ops cs c) as [|g l] eqn:Eg; auto.
      exfalso. apply (A0 (g :: l)). apply Af. split; [discriminate|auto]. }
    constructor; auto; try (apply AC; [|discriminate]; eapply saddFunction_keeps; [apply (FSplits_qname _ _ Ho)|exact W|exact R0|exact E']).
    + intro x. rewrite V, As, reg_scope_app. split.
      * intros [?|(c1 & P & ->)]; auto.
      * intros [?|P]; auto. right. exists x. auto.
    + intros x d. rewrite T, At. unfold reg_type. rewrite in_app_iff. cbn. intuition discriminate.
    + intros x d os. rewrite Fn, Af, reg_fns_app. cbn [reg_fns].
      destruct (list_eq_dec (list_eq_dec N.eq_dec) (cs ++ [c]) (x ++ [d])) as [Eq|Nq].
      * apply app_snoc_inj in Eq as (-> & ->). rewrite <- E0. split.
        -- intros [([?|?] & _)|(_ & _ & ->)]; try congruence. split; auto. destruct os0; discriminate.
        -- intros (_ & ->). right. auto.
      * rewrite app_nil_r. split.
        -- intros [(_ & ?)|(-> & -> & _)]; auto. congruence.
        -- intros ?. left. split; auto. destruct (list_eq_dec str_dec x cs) as [->|]; auto.
           right. intros ->. congruence.
  - assert (N : cs ++ [c] <> []) by (destruct cs; discriminate).
    apply bind_Ok in E as ((S1 & ty) & E1 & E). injection E as ->.
    assert (NT : ~ through_type S [] cs).
    { intro TT. exact (stype_through load S W _ _ _ (Splits_qname _ N Ho) 0 [] R0 _ (Nat.lt_succ_diag_r _) TT _ E1). }
    destruct (stype_views load S W _ _ _ (Splits_qname _ N Ho) 0 [] R0 _ (Nat.lt_succ_diag_r _) (Forall_nil _) Ho NT) as (P & Q).
    assert (V : vtype S cs c).
    { destruct (vtype_dec S cs c) as [V|V]; auto. unfold stype in E1. rewrite (P V) in E1. discriminate. }
    destruct (Q V) as (p & s & Ew & Es & cd & Ec & Hc). cbn [app] in Ew, Hc. unfold stype in E1.
    assert (TY : forall x d, vtype S x d <-> reg_type (ops ++ [WLookup load cs c]) x d).
    { intros x d. rewrite At. unfold reg_type. rewrite in_app_iff. cbn. intuition discriminate. }
    assert (FN : forall x d os, vfn S x d os <-> os <> [] /\ os = reg_fns (ops ++ [WLookup load cs c]) x d).
    { intros x d os. rewrite Af, reg_fns_app. cbn. now rewrite app_nil_r. }
    assert (SC : forall x, vscope S x <-> reg_scope (ops ++ [WLookup load cs c]) x) by (intro x; rewrite As, reg_scope_app; tauto).
    destruct cd as [ty0|].
    + rewrite Hc in E1. injection E1 as <- <-. constructor; auto.
      intros x d t. rewrite Ac, first_lookup_app. destruct (first_lookup ops x d) as [t0|] eqn:Ef; [tauto|].
      cbn [first_lookup]. destruct (list_eq_dec _ _ _) as [Eq|Nq]; [|tauto].
      apply app_snoc_inj in Eq as (-> & ->). exfalso.
      assert (H : vcached S x d ty0) by (exists p; split; auto; exists s; auto). apply Ac in H. congruence.
    + rewrite Hc in E1. apply bind_Ok in E1 as (t0 & El & E1). injection E1 as <- <-.
      assert (Fn : first_lookup ops cs c = None).
      { destruct (first_lookup ops cs c) as [t1|] eqn:Ef; auto. exfalso. apply Ac in Ef as (p' & Hp & s0 & Es0 & Ec0). congruence. }
      set (s' := set_types s (aset c (Some t0) (s_types s))).
      assert (Hs' : s_scopes s' = s_scopes s) by reflexivity.
      constructor; auto.
      * intro x. rewrite (supd_vscope S p s s' x Es Hs'). apply SC.
      * intros x d. rewrite <- TY, (supd_vtype S p s s' cs W Es Ew Hs').
        destruct (list_eq_dec str_dec x cs) as [->|Nx]; [|intuition congruence].
        rewrite (vtype_at _ _ _ _ _ Ew Es). cbn [s_types s' set_types].
        change (map fst (aset c (Some t0) (s_types s))) with (akeys (aset c (Some t0) (s_types s))).
        rewrite akeys_aset. unfold ahas. rewrite Ec. unfold akeys. intuition congruence.
      * intros x d os. rewrite <- FN, (supd_vfn S p s s' cs W Es Ew Hs').
        destruct (list_eq_dec str_dec x cs) as [->|Nx]; [|intuition congruence].
        rewrite (vfn_at _ _ _ _ _ _ Ew Es). cbn. intuition congruence.
      * intros x d t. rewrite first_lookup_app. cbn [first_lookup].
        assert (HV : vcached (supd S p s') x d t <-> (x = cs /\ d = c /\ t = t0) \/ ((x <> cs \/ d <> c) /\ vcached S x d t)).
        { unfold vcached. setoid_rewrite (supd_walk S p s s' Es Hs'). split.
          - intros (q & Hq & sq & Eq & Hc2). destruct (Nat.eq_dec q p) as [->|Nq].
            + rewrite (sget_supd_same _ _ _ _ Es) in Eq. injection Eq as <-. cbn [s_types s' set_types] in Hc2.
              assert (x = cs) by (eapply path_unique; [exact W|eauto|eauto]). subst x.
              destruct (str_dec d c) as [->|Nd].
              * rewrite afind_aset_same in Hc2. left. injection Hc2 as <-. auto.
              * rewrite afind_aset_other in Hc2 by auto. right. split; auto. exists p. split; auto. exists s. auto.
            + rewrite sget_supd_other in Eq by auto. right. split.
              * left. intros ->. congruence.
              * exists q. split; auto. exists sq. auto.
          - intros [(-> & -> & ->)|(Nx & q & Hq & sq & Eq & Hc2)].
            + exists p. split; auto. exists s'. split; [eapply sget_supd_same; eauto|]. cbn. apply afind_aset_same.
            + exists q. split; auto. destruct (Nat.eq_dec q p) as [->|Nq].
              * exists s'. split; [eapply sget_supd_same; eauto|]. cbn. assert (sq = s) by congruence; subst sq.
                assert (x = cs) by (eapply path_unique; [exact W|eauto|eauto]). subst x.
                rewrite afind_aset_other; auto. intros ->. destruct Nx; congruence.
              * exists sq. split; auto. rewrite sget_supd_other; auto. }
        rewrite HV, Ac. destruct (list_eq_dec (list_eq_dec N.eq_dec) (cs ++ [c]) (x ++ [d])) as [Eq|Nq].
        -- apply app_snoc_inj in Eq as (<- & <-). rewrite Fn, El. intuition congruence.
        -- assert (NN : x <> cs \/ d <> c).
           { destruct (list_eq_dec str_dec x cs) as [->|]; auto. right. intros ->. congruence. }
           assert (~ (x = cs /\ d = c)) by tauto. destruct (first_lookup ops x d); intuition congruence.
Qed.

Lemma agrees_init : agrees [] sinit.
Proof.
  constructor.
  - apply sinit_wf.
  - intro x. unfold reg_scope, vscope. split.
    + intros (p & E). destruct x as [|c x]; auto. cbn in E. discriminate.
    + intros [->|(o & [] & _)]. exists 0. reflexivity.
  - intros x c. split; [|intros []]. intros (p & s & E & Es & Hin). destruct x as [|d x]; [|cbn in E; discriminate].
    cbn in E. injection E as <-. cbn in Es. injection Es as <-. destruct Hin.
  - intros x c os. cbn. split; [|intros (N & E); congruence]. intros (p & s & E & Es & Hin). destruct x as [|d x]; [|cbn in E; discriminate].
    cbn in E. injection E as <-. cbn in Es. injection Es as <-. discriminate.
  - intros x c t. cbn. split; [|discriminate]. intros (p & E & s & Es & Hc). destruct x as [|d x]; [|cbn in E; discriminate].
    cbn in E. injection E as <-. cbn in Es. injection Es as <-. discriminate.
Qed.

Lemma agrees_run ops S : Forall wop_ok ops -> scope_run sinit (map wop_op ops) = Ok S -> agrees ops S.
Proof.
  revert S. induction ops as [|o ops IH] using rev_ind; intros S F E.
  - cbn in E. injection E as <-. apply agrees_init.
  - apply Forall_app in F as (F & Fo). inversion Fo; subst.
    rewrite map_app, scope_run_app in E. apply bind_Ok in E as (S1 & E1 & E). cbn [map scope_run] in E.
    apply bind_Ok in E as (S2 & E2 & E). injection E as <-. eapply agrees_step; eauto.
Qed.

Lemma prefix_Forall {P : str -> Prop} x cs : prefix x cs -> Forall P cs -> Forall P x.
Proof. intros (z & ->) F. now apply Forall_app in F as (F & _). Qed.

Lemma reg_scope_comp ops x : Forall wop_ok ops -> reg_scope ops x -> Forall component x.
Proof.
  intros F [->|(o & Hin & P)]; [constructor|]. rewrite Forall_forall in F. pose proof (F _ Hin) as Ho.
  destruct o; cbn in Ho.
  - eapply prefix_Forall; eauto. apply Ho.
  - apply Forall_app in Ho as (Ho & _). eapply prefix_Forall; eauto.
  - apply Forall_app in Ho as (Ho & _). eapply prefix_Forall; eauto.
  - contradiction.
Qed.
Lemma reg_type_comp ops x c : Forall wop_ok ops -> reg_type ops x c -> Forall component (x ++ [c]).
Proof. intros F Hin. rewrite Forall_forall in F. apply (F _ Hin). Qed.
Lemma reg_fns_comp ops x c : Forall wop_ok ops -> reg_fns ops x c <> [] -> Forall component (x ++ [c]).
Proof.
  intros F. induction F as [|o ops Ho F IH]; cbn [reg_fns]; [congruence|].
  destruct o; auto. destruct (list_eq_dec _ _ _) as [E|]; auto. intros _. rewrite <- E. exact Ho.
Qed.

Lemma agrees_comp ops S : Forall wop_ok ops -> agrees ops S -> comp_keys S.
Proof.
  intros F [W As At Af _] i s Es. destruct (path_exists S W (Datatypes.S i) i) as (x & Hx); [lia|eapply sget_lt; eauto|].
  rewrite !Forall_forall. split; [|split]; intros k Hk.
  - apply (In_akeys_afind k (s_scopes s)) in Hk as (q & Hq). assert (V : vscope S (x ++ [k])).
    { exists q. apply walk_snoc. eauto. }
    apply As, (reg_scope_comp _ _ F), Forall_app in V as (_ & V). now inversion V.
  - assert (V : vtype S x k) by now rewrite (vtype_at _ _ _ _ _ Hx Es).
    apply At, (reg_type_comp _ _ _ F), Forall_app in V as (_ & V). now inversion V.
  - apply (In_akeys_afind k (s_fns s)) in Hk as (os & Hq). assert (V : vfn S x k os) by now rewrite (vfn_at _ _ _ _ _ _ Hx Es).
    apply Af in V as (V & ->). apply (reg_fns_comp _ _ _ F), Forall_app in V as (_ & V). now inversion V.
Qed.
