(* ProofMatch.v - lemmas about argument matching and overload sets *)
From Coq Require String.
Import String.StringSyntax.
From Coq Require Import Permutation Sorting.Sorted Relations.
From Verif Require Import Base ModelCore SpecCore ProofCore.

Lemma hasConverter_total H a b : wf_heap H -> valid H a -> valid H b ->
  exists r, hasConverter H a b = Ok r.
Proof.
  intros W Va Vb. unfold hasConverter. destruct (valid_tget H b Vb) as [t E]. rewrite E.
  apply hasFunction_total; auto.
Qed.

Lemma hasConverter_spec H a b : wf_heap H -> valid H a -> valid H b ->
  (hasConverter H a b = Ok true <-> has_user_conversion H a b).
Proof.
  intros W Va Vb. unfold hasConverter, has_user_conversion, converterName.
  destruct (valid_tget H b Vb) as [t E]. rewrite E. rewrite hasFunction_spec; auto.
  split.
  - intros (c & A & D). exists t, c. auto.
  - intros (t' & c & E' & A & D). injection E' as <-. eauto.
Qed.

Lemma isConvertibleTo_total H a t : wf_heap H -> arg_valid H a -> arg_valid H t ->
  exists m, isConvertibleTo H a t = Ok m.
Proof.
  intros W Va Vt. unfold isConvertibleTo.
  destruct (arg_eqb a t); eauto. destruct (xorb _ _); eauto.
  destruct (hasConverter_total H _ _ W Va Vt) as [c Ec]. rewrite Ec. cbn [bind].
  destruct c.
  - destruct (negb _); eauto.
  - destruct (_ && _); eauto. destruct (_ && _ && _); eauto. destruct (_ && _); eauto.
    unfold isParentOf. destruct (isChildOf_total H _ _ W Va Vt) as [r Er]. rewrite Er. cbn [bind].
    destruct (negb r); eauto. destruct (_ && _); eauto. destruct (_ && _); eauto.
Qed.

Ltac destr_arg a := let t := fresh "ty" in let r := fresh "rf" in let c := fresh "cst" in destruct a as [t r c].

Lemma xorb_value H a t :
  xorb (Nat.eqb (a_type a) (h_value H)) (Nat.eqb (a_type t) (h_value H)) = true <-> one_is_value H a t.
Proof.
  unfold one_is_value.
  destruct (Nat.eqb_spec (a_type a) (h_value H)), (Nat.eqb_spec (a_type t) (h_value H)); cbn;
    intuition congruence.
Qed.

Lemma isConvertibleTo_Grade H a t : wf_heap H -> arg_valid H a -> arg_valid H t ->
  forall m, isConvertibleTo H a t = Ok m -> Grade H a t m.
Proof.
  intros W Va Vt m. unfold isConvertibleTo.
  destruct (arg_eqb a t) eqn:Eq.
  { intro E. injection E as <-. apply arg_eqb_eq in Eq. now apply G_same. }
  assert (Hne : a <> t) by (intros ->; rewrite (proj2 (arg_eqb_eq t t) eq_refl) in Eq; discriminate).
  clear Eq.
  destruct (xorb _ _) eqn:Ex.
  { intro E. injection E as <-. apply xorb_value in Ex. now apply G_value. }
  assert (Hnv : ~ one_is_value H a t) by (intro C; apply xorb_value in C; congruence).
  clear Ex.
  pose proof (hasConverter_spec H _ _ W Va Vt) as Hc.
  destruct (hasConverter_total H _ _ W Va Vt) as [c Ec]. rewrite Ec in *. cbn [bind].
  destruct c.
  { assert (has_user_conversion H (a_type a) (a_type t)) by (apply Hc; auto).
    destruct (ref_eqb (a_ref t) LValue) eqn:El; cbn [negb]; intro E; injection E as <-.
    - apply ref_eqb_eq in El. now apply G_conv_lref.
    - apply G_conv; auto. intro C. rewrite C in El. discriminate. }
  assert (Hnc : ~ has_user_conversion H (a_type a) (a_type t)) by (intro C; apply Hc in C; discriminate).
  clear Hc Ec.
  unfold isParentOf.
  pose proof (isChildOf_spec H _ _ W Va Vt) as Hs.
  destruct (isChildOf_total H _ _ W Va Vt) as [r Er]. rewrite Er in *. clear Er. cbn [bind].
  assert (Hs' : r = true <-> Subtype H (a_type a) (a_type t)) by (rewrite <- Hs; intuition congruence).
  clear Hs.
  set (S := Subtype H (a_type a) (a_type t)) in *.
  assert (L : legal_binding a t \/ ~ legal_binding a t).
  { destr_arg a; destr_arg t; unfold legal_binding; cbn. destruct rf0, cst, cst0, rf; intuition congruence. }
  assert (C : same_category a t \/ ~ same_category a t).
  { destr_arg a; destr_arg t; unfold same_category; cbn. destruct rf0, cst, cst0, rf; intuition congruence. }
  intro E.
  destruct m.
  - apply G_illegal; auto. intros [L' S']. fold S in S'. apply Hs' in S'. subst r.
    clear Va Vt Hne Hnv Hnc L C.
    destr_arg a; destr_arg t; unfold legal_binding in L'; cbn in *.
    destruct rf0, cst, cst0, rf; cbn in *; intuition congruence.
  - assert (r = true /\ legal_binding a t /\ ~ same_category a t).
    { clear Va Vt Hne Hnv Hnc L C Hs'.
      destr_arg a; destr_arg t; unfold legal_binding, same_category in *; cbn in *.
      destruct rf0, cst, cst0, rf, r; cbn in *; intuition congruence. }
    apply G_partial; tauto.
  - assert (r = true /\ legal_binding a t /\ same_category a t).
    { clear Va Vt Hne Hnv Hnc L C Hs'.
      destr_arg a; destr_arg t; unfold legal_binding, same_category in *; cbn in *.
      destruct rf0, cst, cst0, rf, r; cbn in *; intuition congruence. }
    apply G_exact; tauto.
Qed.

Lemma Grade_fun H a t m m' : Grade H a t m -> Grade H a t m' -> m = m'.
Proof. intros G1 G2. inversion G1; subst; inversion G2; subst; auto; tauto. Qed.

Lemma isConvertibleTo_iff_Grade H a t m : wf_heap H -> arg_valid H a -> arg_valid H t ->
  (isConvertibleTo H a t = Ok m <-> Grade H a t m).
Proof.
  intros W Va Vt. split; [apply isConvertibleTo_Grade; auto|].
  intro G. destruct (isConvertibleTo_total H a t W Va Vt) as [m' E].
  rewrite E. f_equal. eapply Grade_fun; eauto. apply isConvertibleTo_Grade; auto.
Qed.

(* const / category safety, without any well-formedness assumption *)
Lemma const_safe H a t m :
  isConvertibleTo H a t = Ok m -> m <> MNone ->
  a_type a <> h_value H -> a_type t <> h_value H ->
  hasConverter H (a_type a) (a_type t) = Ok false ->
  a_const a = true -> a_ref t <> Copy -> a_const t = true.
Proof.
  intros E Hm Ha Ht Hc Hca Hr.
  destruct (a_const t) eqn:Ect; auto. exfalso.
  unfold isConvertibleTo in E. rewrite Hc, Hca, Ect in E. cbn [bind] in E.
  destruct (arg_eqb a t) eqn:Eq; [apply arg_eqb_eq in Eq; congruence|].
  destruct (xorb _ _) eqn:Ex.
  { apply xorb_value in Ex. unfold one_is_value in Ex. tauto. }
  destruct (a_ref t); cbn in E; congruence.
Qed.

Lemma lref_safe H a t m :
  isConvertibleTo H a t = Ok m -> m <> MNone ->
  a_type a <> h_value H -> a_type t <> h_value H ->
  hasConverter H (a_type a) (a_type t) = Ok false ->
  a_ref t = LValue -> a_const t = false -> a_ref a = LValue /\ a_const a = false.
Proof.
  intros E Hm Ha Ht Hc Hr Hct.
  unfold isConvertibleTo in E. rewrite Hc, Hr, Hct in E. cbn [bind] in E.
  destruct (arg_eqb a t) eqn:Eq; [apply arg_eqb_eq in Eq; subst; auto|].
  destruct (xorb _ _) eqn:Ex.
  { apply xorb_value in Ex. unfold one_is_value in Ex. tauto. }
  destruct (a_const a) eqn:Eca, (a_ref a) eqn:Era; cbn in E; try congruence; auto.
Qed.

Lemma rref_safe H a t m :
  isConvertibleTo H a t = Ok m -> m <> MNone ->
  a_type a <> h_value H -> a_type t <> h_value H ->
  hasConverter H (a_type a) (a_type t) = Ok false ->
  a_ref t = RValue -> a_ref a = RValue.
Proof.
  intros E Hm Ha Ht Hc Hr.
  unfold isConvertibleTo in E. rewrite Hc, Hr in E. cbn [bind] in E.
  destruct (arg_eqb a t) eqn:Eq; [apply arg_eqb_eq in Eq; subst; auto|].
  destruct (xorb _ _) eqn:Ex.
  { apply xorb_value in Ex. unfold one_is_value in Ex. tauto. }
  destruct (a_ref a) eqn:Era; auto; exfalso; cbn in E; destruct (negb (testConstConversion _ _)); congruence.
Qed.

Lemma binding_subtype H a t m :
  isConvertibleTo H a t = Ok m -> m <> MNone ->
  a_type a <> h_value H -> a_type t <> h_value H ->
  hasConverter H (a_type a) (a_type t) = Ok false ->
  Subtype H (a_type a) (a_type t).
Proof.
  intros E Hm Ha Ht Hc.
  unfold isConvertibleTo in E. rewrite Hc in E. cbn [bind] in E.
  destruct (arg_eqb a t) eqn:Eq; [apply arg_eqb_eq in Eq; subst; constructor|].
  destruct (xorb _ _) eqn:Ex.
  { apply xorb_value in Ex. unfold one_is_value in Ex. tauto. }
  destruct (_ && _); [congruence|]. destruct (_ && _ && _); [congruence|]. destruct (_ && _); [congruence|].
  unfold isParentOf in E. apply bind_Ok in E as ([|] & E1 & E2); cbn in E2; [|congruence].
  eapply isChildOf_f_sound; eauto.
Qed.

(* ---------- combine / testArguments ---------- *)

Lemma combine_min a b : rank_of (combine a b) = Nat.min (rank_of a) (rank_of b).
Proof. destruct a, b; reflexivity. Qed.

Lemma rank_of_inj a b : rank_of a = rank_of b -> a = b.
Proof. destruct a, b; cbn; congruence. Qed.

Lemma rank_le_2 g : rank_of g <= 2.
Proof. destruct g; cbn; lia. Qed.

Lemma testArguments_loop_spec H vs ts gs m :
  Forall2 (fun vt g => isConvertibleTo H (fst vt) (snd vt) = Ok g) (List.combine vs ts) gs ->
  length vs = length ts ->
  exists g, testArguments_loop H m vs ts = Ok g /\
    rank_of g <= rank_of m /\ (forall x, In x gs -> rank_of g <= rank_of x) /\ (g = m \/ In g gs).
Proof.
  revert ts gs m; induction vs as [|v vs IH]; intros [|t ts] gs m F L; cbn in *; try discriminate.
  - inversion F; subst. exists m. repeat split; auto; try lia. intros x [].
  - inversion F as [|? g0 ? gs' E F']; subst. cbn in E. rewrite E. cbn [bind].
    pose proof (combine_min m g0) as Hc.
    destruct (grade_eqb (combine m g0) MNone) eqn:En.
    + apply grade_eqb_eq in En. rewrite En in Hc. cbn in Hc.
      exists MNone. cbn. repeat split; try lia.
      destruct (Nat.min_dec (rank_of m) (rank_of g0)) as [D|D]; rewrite D in Hc.
      * left. apply rank_of_inj. auto.
      * right. left. apply rank_of_inj. auto.
    + destruct (IH ts gs' (combine m g0) F') as (g & Eg & L1 & L2 & L3); [congruence|].
      exists g. repeat split; auto.
      * lia.
      * intros x [<-|Hx]; auto. lia.
      * destruct L3 as [->|Hg]; [|right; right; auto].
        destruct (Nat.min_dec (rank_of m) (rank_of g0)) as [D|D]; rewrite D in Hc; apply rank_of_inj in Hc; auto.
        right. left. auto.
Qed.

Lemma testArguments_weakest H vs ts gs :
  Forall2 (fun vt g => isConvertibleTo H (fst vt) (snd vt) = Ok g) (List.combine vs ts) gs ->
  length vs = length ts ->
  exists g, testArguments H vs ts = Ok g /\ weakest gs g.
Proof.
  intros F L. unfold testArguments. rewrite L, Nat.eqb_refl. cbn [negb].
  destruct (testArguments_loop_spec H vs ts gs MExact F L) as (g & E & _ & L2 & L3).
  exists g. split; auto. split; auto.
  destruct L3 as [->|Hg]; auto.
  destruct gs as [|g0 gs]; auto. left. specialize (L2 g0 (or_introl eq_refl)). cbn in L2.
  left. pose proof (rank_le_2 g0). apply rank_of_inj. cbn. lia.
Qed.

Lemma testArguments_arity H vs ts : length vs <> length ts -> testArguments H vs ts = Ok MNone.
Proof. intro N. unfold testArguments. apply Nat.eqb_neq in N. now rewrite N. Qed.

Lemma weakest_fun gs g h : weakest gs g -> weakest gs h -> g = h.
Proof.
  intros [A1 [B1|[B1 C1]]] [A2 [B2|[B2 C2]]]; subst; auto; try (now destruct B1 || now destruct B2).
  apply rank_of_inj. specialize (A1 _ B2). specialize (A2 _ B1). lia.
Qed.

Lemma weakest_perm gs gs' g : Permutation gs gs' -> weakest gs g -> weakest gs' g.
Proof.
  intros P [A B]. split.
  - intros x Hx. apply A. eapply Permutation_in; [apply Permutation_sym|]; eauto.
  - destruct B as [B|[-> ->]].
    + left. eapply Permutation_in; eauto.
    + right. apply Permutation_nil in P. auto.
Qed.

Lemma conv_grades_total H vs ts : wf_heap H -> Forall (arg_valid H) vs -> Forall (arg_valid H) ts ->
  exists gs, Forall2 (fun vt g => isConvertibleTo H (fst vt) (snd vt) = Ok g) (List.combine vs ts) gs.
Proof.
  intros W. revert ts; induction vs as [|v vs IH]; intros ts Fv Ft.
  - exists []. constructor.
  - destruct ts as [|t ts]; [exists []; constructor|].
    inversion Fv; subst. inversion Ft; subst.
    destruct (IH ts) as [gs Hg]; auto.
    destruct (isConvertibleTo_total H v t W) as [g Eg]; auto.
    exists (g :: gs). constructor; auto.
Qed.

Lemma testArguments_total H vs ts : wf_heap H -> Forall (arg_valid H) vs -> Forall (arg_valid H) ts ->
  exists g, testArguments H vs ts = Ok g.
Proof.
  intros W Fv Ft. destruct (Nat.eq_dec (length vs) (length ts)) as [L|L].
  - destruct (conv_grades_total H vs ts W Fv Ft) as [gs F].
    destruct (testArguments_weakest H vs ts gs F L) as (g & E & _). eauto.
  - rewrite testArguments_arity; eauto.
Qed.

Lemma Forall2_perm_l {A B} (R : A -> B -> Prop) l l' m :
  Permutation l l' -> Forall2 R l m -> exists m', Permutation m m' /\ Forall2 R l' m'.
Proof.
  intro P. revert m; induction P as [|x l l' P IH|x y l|l l' l'' P1 IH1 P2 IH2]; intros m F.
  - inversion F; subst. eauto.
  - inversion F as [|? b ? m' Rx F']; subst. destruct (IH _ F') as (m'' & P' & F'').
    exists (b :: m''). split; [now constructor|constructor; auto].
  - inversion F as [|? b ? m' Ry F']; subst. inversion F' as [|? b' ? m'' Rx F'']; subst.
    exists (b' :: b :: m''). split; [constructor|repeat constructor; auto].
  - destruct (IH1 _ F) as (m1 & P1' & F1). destruct (IH2 _ F1) as (m2 & P2' & F2).
    exists m2. split; auto. eapply Permutation_trans; eauto.
Qed.

Lemma testArguments_perm H vs ts vs' ts' : wf_heap H -> Forall (arg_valid H) vs -> Forall (arg_valid H) ts ->
  length vs = length ts -> length vs' = length ts' ->
  Permutation (List.combine vs ts) (List.combine vs' ts') ->
  testArguments H vs ts = testArguments H vs' ts'.
Proof.
  intros W Fv Ft L L' P.
  destruct (conv_grades_total H vs ts W Fv Ft) as [gs F].
  destruct (Forall2_perm_l _ _ _ _ P F) as (gs' & Pg & F').
  destruct (testArguments_weakest H vs ts gs F L) as (g & E & Wk).
  destruct (testArguments_weakest H vs' ts' gs' F' L') as (g' & E' & Wk').
  rewrite E, E'. f_equal. exact (weakest_fun gs' g g' (weakest_perm gs gs' g Pg Wk) Wk').
Qed.

Lemma testReturn_total H v t : wf_heap H -> arg_valid H v -> arg_valid H t ->
  exists g, testReturn H v t = Ok g.
Proof.
  intros W Vv Vt. unfold testReturn.
  destruct (Nat.eqb _ _); eauto. destruct (Nat.eqb _ _).
  - destruct (negb _); eauto. destruct (ref_eqb _ _); eauto.
  - destruct (isConvertibleTo_total H t v W Vt Vv) as [m E]. rewrite E. cbn [bind].
    destruct (grade_eqb _ _); eauto. destruct (_ && _); eauto.
Qed.

Lemma test_sig_total H f ret args : wf_heap H -> fn_valid H f -> arg_valid H ret -> Forall (arg_valid H) args ->
  exists g, test_sig H f ret args = Ok g.
Proof.
  intros W [Vr Va] Vret Vargs. unfold test_sig.
  destruct (testReturn_total H ret (f_ret f) W) as [r Er]; auto. rewrite Er. cbn [bind].
  destruct (testArguments_total H args (f_args f) W) as [a Ea]; auto. rewrite Ea. cbn [bind]. eauto.
Qed.

Lemma test_sig_grades_total H os ret args : wf_heap H -> Forall (fn_valid H) os ->
  arg_valid H ret -> Forall (arg_valid H) args ->
  exists gs, Forall2 (fun f g => test_sig H f ret args = Ok g) os gs.
Proof.
  intros W Fo Vr Va. induction Fo as [|f os Vf Fo IH].
  - exists []. constructor.
  - destruct IH as [gs Hg]. destruct (test_sig_total H f ret args W) as [g Eg]; auto.
    exists (g :: gs). constructor; auto.
Qed.

(* ---------- overload resolution ---------- *)

Definition graded (H : heap) (ret : argument) (args : list argument) (l : list (fn * grade)) : Prop :=
  forall f g, In (f, g) l -> test_sig H f ret args = Ok g.

Lemma no_exact_cons f g l : no_exact ((f, g) :: l) <-> g <> MExact /\ no_exact l.
Proof.
  unfold no_exact. split.
  - intro N. split; [eapply N; left; eauto|intros f' g' Hin; eapply N; right; eauto].
  - intros [N1 N2] f' g' [E|Hin]; [injection E as <- <-; auto|eauto].
Qed.

(* characterisation of the scan started from any state *)
Lemma resolve_loop_spec H ret args l : graded H ret args l -> forall best amb,
  exists best' amb', resolve_loop H (map fst l) ret args best amb = Ok (best', amb') /\
  ( (exists l1 f l2, l = l1 ++ (f, MExact) :: l2 /\ no_exact l1 /\ best' = Some f /\ amb' = false)
  \/ (no_exact l /\
      match best with
      | Some b => best' = Some b /\ (amb' = true <-> amb = true \/ exists f, In (f, MPartial) l)
      | None =>
          ((forall f g, In (f, g) l -> g = MNone) /\ best' = None /\ amb' = amb)
          \/ (exists l1 f l2, l = l1 ++ (f, MPartial) :: l2 /\ (forall h g, In (h, g) l1 -> g = MNone) /\
                best' = Some f /\ (amb' = true <-> amb = true \/ exists h, In (h, MPartial) l2))
      end)).
Proof.
  induction l as [|[f g] l IH]; intros Hg best amb; cbn [map fst resolve_loop].
  - exists best, amb. split; auto. right. split; [intros ? ? []|].
    destruct best.
    + split; auto. split; auto. intros [?|[? []]]; auto.
    + left. repeat split; auto. intros ? ? [].
  - assert (Hg' : graded H ret args l) by (intros f' g' Hin; apply Hg; now right).
    rewrite (Hg f g (or_introl eq_refl)). cbn [bind].
    destruct g; cbn [grade_eqb].
    + (* None *)
      destruct (IH Hg' best amb) as (b' & a' & E & C). exists b', a'. split; auto.
      destruct C as [(l1 & f1 & l2 & -> & N & -> & ->)|[N C]].
      * left. exists ((f, MNone) :: l1), f1, l2. repeat split; auto.
        apply no_exact_cons. split; [discriminate|auto].
      * right. split; [apply no_exact_cons; split; [discriminate|auto]|].
        destruct best as [b|].
        -- destruct C as [C1 C2]. split; auto. rewrite C2. split; intros [?|(h & Hh)]; auto.
           ++ right. exists h. now right.
           ++ destruct Hh as [Hh|Hh]; [discriminate|eauto].
        -- destruct C as [(A & -> & ->)|(l1 & f1 & l2 & -> & A & -> & C)].
           ++ left. repeat split; auto. intros f' g' [Ef|Hin]; [congruence|eauto].
           ++ right. exists ((f, MNone) :: l1), f1, l2. repeat split; auto.
              ** intros h g' [Ef|Hin]; [congruence|eauto].
              ** apply C. 
              ** apply C.
    + (* Partial *)
      rewrite andb_true_r. destruct best as [b|].
      * destruct (IH Hg' (Some b) true) as (b' & a' & E & C). exists b', a'. split; auto.
        destruct C as [(l1 & f1 & l2 & -> & N & -> & ->)|[N [C1 C2]]].
        -- left. exists ((f, MPartial) :: l1), f1, l2. repeat split; auto.
           apply no_exact_cons. split; [discriminate|auto].
        -- right. split; [apply no_exact_cons; split; [discriminate|auto]|].
           split; auto. split; intros _; [|apply C2; auto]. right. exists f. now left.
      * destruct (IH Hg' (Some f) amb) as (b' & a' & E & C). exists b', a'. split; auto.
        destruct C as [(l1 & f1 & l2 & -> & N & -> & ->)|[N [C1 C2]]].
        -- left. exists ((f, MPartial) :: l1), f1, l2. repeat split; auto.
           apply no_exact_cons. split; [discriminate|auto].
        -- right. split; [apply no_exact_cons; split; [discriminate|auto]|].
           right. exists [], f, l. repeat split; auto.
           ++ intros ? ? [].
           ++ apply C2.
           ++ apply C2.
    + (* Exact *)
      rewrite andb_false_r. exists (Some f), false. split; auto.
      left. exists [], f, l. repeat split; auto. intros ? ? [].
Qed.

Lemma combine_map_fst {A B} (l : list A) (m : list B) : length l = length m -> map fst (List.combine l m) = l.
Proof. revert m; induction l; intros [|b m]; cbn; intro L; try discriminate; auto. f_equal. auto. Qed.

Lemma graded_combine H ret args os gs :
  Forall2 (fun f g => test_sig H f ret args = Ok g) os gs -> graded H ret args (List.combine os gs).
Proof.
  induction 1; intros f g Hin; cbn in Hin; [tauto|].
  destruct Hin as [E|Hin]; [injection E as <- <-; auto|eapply IHForall2; eauto].
Qed.

Lemma resolve_sound H os ret args gs :
  Forall2 (fun f g => test_sig H f ret args = Ok g) os gs ->
  exists r, overloads_resolve H os ret args = Ok r /\ resolution_spec (List.combine os gs) r.
Proof.
  intro F. pose proof (graded_combine _ _ _ _ _ F) as G.
  pose proof (Forall2_len _ _ _ F) as L.
  destruct (resolve_loop_spec H ret args _ G None false) as (b & a & E & C).
  rewrite combine_map_fst in E; auto. unfold overloads_resolve. rewrite E. cbn [bind].
  set (l := List.combine os gs) in *.
  destruct C as [(l1 & f & l2 & El & N & -> & ->)|[N [(A & -> & ->)|(l1 & f & l2 & El & A & -> & C)]]].
  - eexists; split; [reflexivity|]. cbn. left. eauto.
  - eexists; split; [reflexivity|]. exact A.
  - destruct a.
    + eexists; split; [reflexivity|]. cbn. split; auto.
      destruct (proj1 C eq_refl) as [?|(h & Hh)]; [discriminate|].
      apply in_split in Hh as (l3 & l4 & ->). exists l1, f, l3, h, l4. auto.
    + eexists; split; [reflexivity|]. cbn. right. split; auto. exists l1, l2. split; auto.
      intros h g Hin. apply in_app_iff in Hin as [Hin|Hin]; eauto.
      destruct g; auto.
      * exfalso. assert (false = true) by (apply C; right; exists h; auto). discriminate.
      * exfalso. eapply (N h MExact); auto. rewrite El. apply in_app_iff. right. now right.
Qed.

(* the specification determines the outcome *)
Lemma no_exact_app l m : no_exact (l ++ m) <-> no_exact l /\ no_exact m.
Proof.
  unfold no_exact. split.
  - intro N. split; intros f g Hin; eapply N; apply in_app_iff; eauto.
  - intros [N1 N2] f g Hin. apply in_app_iff in Hin as [?|?]; eauto.
Qed.

Lemma first_exact_unique (l1 l2 l1' l2' : list (fn * grade)) f f' :
  l1 ++ (f, MExact) :: l2 = l1' ++ (f', MExact) :: l2' -> no_exact l1 -> no_exact l1' -> f = f'.
Proof.
  revert l1'; induction l1 as [|[h g] l1 IH]; intros [|[h' g'] l1'] E N N'; cbn in E.
  - congruence.
  - injection E as <- <- _. exfalso. eapply (N' f MExact); [now left|auto].
  - injection E as -> -> _. exfalso. eapply (N f' MExact); [now left|auto].
  - injection E as <- <- E. eapply IH; eauto.
    + apply no_exact_cons in N. tauto.
    + apply no_exact_cons in N'. tauto.
Qed.

Lemma only_partial_unique (l1 l2 l1' l2' : list (fn * grade)) f f' :
  l1 ++ (f, MPartial) :: l2 = l1' ++ (f', MPartial) :: l2' ->
  (forall h g, In (h, g) (l1 ++ l2) -> g = MNone) -> f = f'.
Proof.
  intros E A. assert (Hin : In (f', MPartial) (l1 ++ (f, MPartial) :: l2)).
  { rewrite E. apply in_app_iff. right. now left. }
  apply in_app_iff in Hin as [Hin|[Hin|Hin]].
  - exfalso. assert (MPartial = MNone) by (eapply A; apply in_app_iff; eauto). discriminate.
  - congruence.
  - exfalso. assert (MPartial = MNone) by (eapply A; apply in_app_iff; eauto). discriminate.
Qed.

Lemma resolution_spec_fun l r r' : resolution_spec l r -> resolution_spec l r' -> r = r'.
Proof.
  assert (NE : forall l1 f l2, no_exact (l1 ++ (f, MExact) :: l2) -> False).
  { intros l1 f l2 N. eapply (N f MExact); auto. apply in_app_iff. right. now left. }
  assert (NA : forall (l1 : list (fn * grade)) (f : fn) (g : grade) l2, (forall h g', In (h, g') (l1 ++ (f, g) :: l2) -> g' = MNone) -> g = MNone).
  { intros l1 f g l2 A. apply (A f). apply in_app_iff. right. now left. }
  assert (AMB : forall (l1 : list (fn * grade)) (f : fn) l2 l1' f' l2' h l3,
     l1 ++ (f, MPartial) :: l2 = l1' ++ (f', MPartial) :: l2' ++ (h, MPartial) :: l3 ->
     (forall h g, In (h, g) (l1 ++ l2) -> g = MNone) -> False).
  { intros l1 f l2 l1' f' l2' h l3 E A.
    assert (L1 : forall k, In (k, MPartial) l1 -> False).
    { intros k Hk. assert (MPartial = MNone) by (eapply A; apply in_app_iff; eauto). discriminate. }
    assert (L2 : forall k, In (k, MPartial) l2 -> False).
    { intros k Hk. assert (MPartial = MNone) by (eapply A; apply in_app_iff; eauto). discriminate. }
    clear A. revert l1' E. induction l1 as [|x l1 IH]; intros [|y l1'] E; cbn in E.
    - injection E as -> ->. eapply (L2 h). apply in_app_iff. right. now left.
    - injection E as <- ->. eapply (L2 f'). apply in_app_iff. right. now left.
    - injection E as -> E. eapply (L1 f'). now left.
    - injection E as -> E. eapply IH; eauto. intros k Hk. eapply L1. right. eauto. }
  assert (NE2 : forall l1 f l2, l = l1 ++ (f, MExact) :: l2 -> no_exact l -> False) by (intros; subst; eauto).
  assert (NA2 : forall l1 f g l2, l = l1 ++ (f, g) :: l2 -> (forall f g, In (f, g) l -> g = MNone) -> g = MNone)
    by (intros; subst; eauto).
  clear NE NA.
  unfold resolution_spec. intros S S'.
  destruct r as [f| |], r' as [f'| |]; auto.
  - f_equal. destruct S as [(l1 & l2 & E & N)|(N & l1 & l2 & E & A)], S' as [(l1' & l2' & E' & N')|(N' & l1' & l2' & E' & A')].
    + rewrite E in E'. eapply first_exact_unique; eauto.
    + exfalso; eauto.
    + exfalso; eauto.
    + rewrite E in E'. eapply only_partial_unique; eauto.
  - exfalso. destruct S as [(l1 & l2 & E & N)|(N & l1 & l2 & E & A)];
      specialize (NA2 _ _ _ _ E S'); discriminate.
  - exfalso. destruct S' as (N' & l1' & f' & l2' & h & l3 & E').
    destruct S as [(l1 & l2 & E & N)|(N & l1 & l2 & E & A)]; eauto.
    rewrite E in E'. eauto.
  - exfalso. destruct S' as [(l1 & l2 & E & N)|(N & l1 & l2 & E & A)];
      specialize (NA2 _ _ _ _ E S); discriminate.
  - exfalso. destruct S' as (N' & l1' & f' & l2' & h & l3 & E').
    specialize (NA2 _ _ _ _ E' S). discriminate.
  - exfalso. destruct S as (N & l1 & f & l2 & h & l3 & E).
    destruct S' as [(l1' & l2' & E' & N')|(N' & l1' & l2' & E' & A')]; eauto.
    rewrite E' in E. eauto.
  - exfalso. destruct S as (N & l1 & f & l2 & h & l3 & E).
    specialize (NA2 _ _ _ _ E S'). discriminate.
Qed.

Lemma resolve_iff H os ret args gs r :
  Forall2 (fun f g => test_sig H f ret args = Ok g) os gs ->
  (overloads_resolve H os ret args = Ok r <-> resolution_spec (List.combine os gs) r).
Proof.
  intro F. destruct (resolve_sound H os ret args gs F) as (r' & E & S). rewrite E.
  split; intro X.
  - injection X as <-. auto.
  - f_equal. eapply resolution_spec_fun; eauto.
Qed.

(* ---------- order independence ---------- *)

Lemma filter_perm {A} (p : A -> bool) l m : Permutation l m -> Permutation (filter p l) (filter p m).
Proof.
  induction 1; cbn; auto.
  - destruct (p x); auto.
  - destruct (p x), (p y); auto. constructor.
  - eapply Permutation_trans; eauto.
Qed.

Lemma no_exact_perm l m : Permutation l m -> no_exact l -> no_exact m.
Proof.
  intros P N f g Hin. eapply N. eapply Permutation_in; [apply Permutation_sym|]; eauto.
Qed.

Lemma filter_none {A} (p : A -> bool) l : (forall x, In x l -> p x = false) -> filter p l = [].
Proof.
  induction l as [|x l IH]; cbn; intro A0; auto. rewrite (A0 x) by now left. apply IH. auto.
Qed.

Lemma no_exact_filter l : no_exact l -> filter (fun p => grade_eqb (snd p) MExact) l = [].
Proof.
  intro N. apply filter_none. intros [f g] Hin. cbn. destruct g; auto. exfalso. eapply N; eauto.
Qed.

Definition parts (l : list (fn * grade)) := filter (fun p => grade_eqb (snd p) MPartial) l.

Lemma resolution_perm l m r : Permutation l m -> exact_count l <= 1 ->
  resolution_spec l r -> resolution_spec m r.
Proof.
  intros P EC S. destruct r as [f| |]; cbn in *.
  - destruct S as [(l1 & l2 & -> & N)|(N & l1 & l2 & -> & A)].
    + left. assert (Hin : In (f, MExact) m).
      { eapply Permutation_in; eauto. apply in_app_iff. right. now left. }
      apply in_split in Hin as (m1 & m2 & ->). exists m1, m2. split; auto.
      intros h g Hh ->.
      assert (EC' : exact_count (m1 ++ (f, MExact) :: m2) <= 1).
      { unfold exact_count in *. rewrite <- (Permutation_length (filter_perm _ _ _ P)). auto. }
      unfold exact_count in EC'. rewrite filter_app in EC'. cbn in EC'.
      rewrite app_length in EC'. cbn in EC'.
      assert (0 < length (filter (fun p => grade_eqb (snd p) MExact) m1)).
      { assert (Hf : In (h, MExact) (filter (fun p => grade_eqb (snd p) MExact) m1))
          by (apply filter_In; auto). destruct (filter _ m1); [destruct Hf|cbn; lia]. }
      lia.
    + right. split; [eapply no_exact_perm; eauto|].
      assert (Hin : In (f, MPartial) m).
      { eapply Permutation_in; eauto. apply in_app_iff. right. now left. }
      apply in_split in Hin as (m1 & m2 & ->). exists m1, m2. split; auto.
      intros h g Hin. eapply A. eapply Permutation_in; [|exact Hin].
      apply Permutation_sym. eapply Permutation_app_inv. exact P.
  - intros f g Hin. eapply S. eapply Permutation_in; [apply Permutation_sym|]; eauto.
  - destruct S as (N & l1 & f & l2 & h & l3 & ->). split; [eapply no_exact_perm; eauto|].
    assert (Hin : In (f, MPartial) m).
    { eapply Permutation_in; eauto. apply in_app_iff. right. now left. }
    apply in_split in Hin as (m1 & m2 & ->).
    apply Permutation_app_inv in P.
    assert (Hh : In (h, MPartial) (m1 ++ m2)).
    { eapply Permutation_in; eauto. rewrite !in_app_iff. right. right. now left. }
    apply in_app_iff in Hh as [Hh|Hh]; apply in_split in Hh as (n1 & n2 & ->).
    + exists n1, h, n2, f, m2. rewrite <- app_assoc. reflexivity.
    + exists m1, f, n1, h, n2. reflexivity.
Qed.

Lemma combine_perm_grades (H : heap) ret args os os' gs :
  Permutation os os' -> Forall2 (fun f g => test_sig H f ret args = Ok g) os gs ->
  exists gs', Forall2 (fun f g => test_sig H f ret args = Ok g) os' gs' /\
     Permutation (List.combine os gs) (List.combine os' gs').
Proof.
  intro P. revert gs; induction P as [|x l l' P IH|x y l|l l' l'' P1 IH1 P2 IH2]; intros gs F.
  - inversion F; subst. exists []. split; constructor.
  - inversion F as [|? b ? m' Rx F']; subst. destruct (IH _ F') as (m'' & F'' & P').
    exists (b :: m''). split; [constructor; auto|cbn; now constructor].
  - inversion F as [|? b ? m' Ry F']; subst. inversion F' as [|? b' ? m'' Rx F'']; subst.
    exists (b' :: b :: m''). split; [repeat constructor; auto|cbn; constructor].
  - destruct (IH1 _ F) as (m1 & F1 & P1'). destruct (IH2 _ F1) as (m2 & F2 & P2').
    exists m2. split; auto. eapply Permutation_trans; eauto.
Qed.

Lemma resolve_perm H os os' ret args gs :
  Permutation os os' ->
  Forall2 (fun f g => test_sig H f ret args = Ok g) os gs ->
  exact_count (List.combine os gs) <= 1 ->
  overloads_resolve H os ret args = overloads_resolve H os' ret args.
Proof.
  intros P F EC. destruct (combine_perm_grades H ret args os os' gs P F) as (gs' & F' & P').
  destruct (resolve_sound H os ret args gs F) as (r & E & S).
  rewrite E. symmetry. apply (resolve_iff H os' ret args gs' r F').
  eapply resolution_perm; eauto.
Qed.

(* success does not depend on the order, except through which exact one is first *)
Lemma resolve_perm_success H os os' ret args gs f :
  Permutation os os' ->
  Forall2 (fun f g => test_sig H f ret args = Ok g) os gs ->
  overloads_resolve H os ret args = Ok (Chosen f) ->
  exists f', overloads_resolve H os' ret args = Ok (Chosen f').
Proof.
  intros P F E. destruct (combine_perm_grades H ret args os os' gs P F) as (gs' & F' & P').
  apply (resolve_iff _ _ _ _ _ _ F) in E.
  destruct (resolve_sound H os' ret args gs' F') as (r & E' & S'). rewrite E'.
  destruct r as [f'| |]; eauto; exfalso.
  - cbn in S'. destruct E as [(l1 & l2 & El & N)|(N & l1 & l2 & El & A)].
    + assert (MExact = MNone); [|discriminate]. apply (S' f). eapply Permutation_in; eauto.
      rewrite El. apply in_app_iff. right. now left.
    + assert (MPartial = MNone); [|discriminate]. apply (S' f). eapply Permutation_in; eauto.
      rewrite El. apply in_app_iff. right. now left.
  - pose proof S' as S0. destruct S' as (N' & _).
    assert (N : no_exact (List.combine os gs)) by (eapply no_exact_perm; [apply Permutation_sym|]; eauto).
    assert (S1 : resolution_spec (List.combine os gs) Ambiguous).
    { eapply resolution_perm; [apply Permutation_sym; eauto| |exact S0].
      unfold exact_count. rewrite (no_exact_filter _ N'). cbn. lia. }
    pose proof (resolution_spec_fun _ _ _ E S1). discriminate.
Qed.

(* ---------- test / get / call agreement ---------- *)

Lemma overloads_test_get H os ret args gs :
  Forall2 (fun f g => test_sig H f ret args = Ok g) os gs ->
  (overloads_test H os ret args = Ok true /\ exists f, overloads_get H os ret args = Ok f /\ In f os /\
      exists g, g <> MNone /\ test_sig H f ret args = Ok g)
  \/ (overloads_test H os ret args = Ok false /\ overloads_get H os ret args = Abort /\
      forall g, In g gs -> g = MNone).
Proof.
  induction 1 as [|f g os gs E F IH]; cbn.
  - right. repeat split; auto. intros g [].
  - rewrite E. cbn [bind]. destruct g; cbn [grade_eqb negb].
    + destruct IH as [(E1 & f' & E2 & Hin & g' & Hg)|(E1 & E2 & A)].
      * left. split; auto. exists f'. repeat split; auto. eauto.
      * right. repeat split; auto. intros g [<-|Hg]; auto.
    + left. split; auto. exists f. repeat split; auto. exists MPartial. split; [discriminate|auto].
    + left. split; auto. exists f. repeat split; auto. exists MExact. split; [discriminate|auto].
Qed.

Lemma overloads_get_first H os ret args f :
  overloads_get H os ret args = Ok f ->
  exists os1 os2 g, os = os1 ++ f :: os2 /\ test_sig H f ret args = Ok g /\ g <> MNone /\
    Forall (fun h => test_sig H h ret args = Ok MNone) os1.
Proof.
  induction os as [|h os IH]; cbn; [discriminate|].
  intro E. apply bind_Ok in E as (g & Eg & E).
  destruct (grade_eqb g MNone) eqn:En; cbn in E.
  - apply grade_eqb_eq in En as ->. destruct (IH E) as (o1 & o2 & g & -> & E1 & E2 & A).
    exists (h :: o1), o2, g. repeat split; auto.
  - injection E as <-. exists [], os, g. repeat split; auto. intros ->. discriminate.
Qed.

Lemma call_implies_test H os ret args gs f :
  Forall2 (fun f g => test_sig H f ret args = Ok g) os gs ->
  overloads_resolve H os ret args = Ok (Chosen f) -> overloads_test H os ret args = Ok true.
Proof.
  intros F E. destruct (overloads_test_get H os ret args gs F) as [(T & _)|(T & G & A)]; auto.
  exfalso. apply (resolve_iff _ _ _ _ _ _ F) in E.
  assert (X : resolution_spec (List.combine os gs) NoOverload).
  { intros h g Hin. apply A. eapply in_combine_r; eauto. }
  pose proof (resolution_spec_fun _ _ _ E X). discriminate.
Qed.

Lemma In_combine_graded (H : heap) ret args os gs h : 
  Forall2 (fun f g => test_sig H f ret args = Ok g) os gs -> forall g,
  In (h, g) (List.combine os gs) -> In h os /\ test_sig H h ret args = Ok g.
Proof.
  intros F g Hin. split; [eapply in_combine_l; eauto|].
  apply (graded_combine _ _ _ _ _ F). auto.
Qed.

(* with one viable overload, get and call agree *)
Lemma get_call_agree H os ret args gs os1 f os2 g :
  Forall2 (fun f g => test_sig H f ret args = Ok g) os gs ->
  os = os1 ++ f :: os2 -> g <> MNone -> test_sig H f ret args = Ok g ->
  Forall (fun h => test_sig H h ret args = Ok MNone) (os1 ++ os2) ->
  overloads_get H os ret args = Ok f /\ overloads_resolve H os ret args = Ok (Chosen f).
Proof.
  intros F -> Hg Eg A. rewrite Forall_app in A. destruct A as [A1 A2].
  split.
  - clear F. induction A1 as [|h os1 E A1 IH]; cbn.
    + rewrite Eg. cbn [bind]. destruct g; auto. congruence.
    + rewrite E. cbn. auto.
  - apply (resolve_iff _ _ _ _ _ _ F).
    apply Forall2_app_inv_l in F as (gs1 & gs2' & F1 & F2 & ->).
    inversion F2 as [|? g' ? gs2 E2 F2']; subst. rewrite Eg in E2. injection E2 as <-.
    assert (Ec : List.combine (os1 ++ f :: os2) (gs1 ++ g :: gs2) = List.combine os1 gs1 ++ (f, g) :: List.combine os2 gs2).
    { pose proof (Forall2_len _ _ _ F1) as L. clear - L.
      revert gs1 L; induction os1 as [|x os1 IH]; intros [|y gs1] L; cbn in *; try discriminate; auto.
      f_equal. apply IH. congruence. }
    rewrite Ec.
    assert (N1 : forall h g', In (h, g') (List.combine os1 gs1) -> g' = MNone).
    { intros h g' Hin. destruct (In_combine_graded _ _ _ _ _ _ F1 _ Hin) as [Hi E].
      rewrite Forall_forall in A1. rewrite A1 in E by auto. congruence. }
    assert (N2 : forall h g', In (h, g') (List.combine os2 gs2) -> g' = MNone).
    { intros h g' Hin. destruct (In_combine_graded _ _ _ _ _ _ F2' _ Hin) as [Hi E].
      rewrite Forall_forall in A2. rewrite A2 in E by auto. congruence. }
    destruct g; [congruence| |].
    + right. split.
      * apply no_exact_app. split; [|apply no_exact_cons; split; [discriminate|]];
          intros h g' Hin ->; [apply N1 in Hin|apply N2 in Hin]; discriminate.
      * exists (List.combine os1 gs1), (List.combine os2 gs2). split; auto.
        intros h g' Hin. apply in_app_iff in Hin as [?|?]; eauto.
    + left. exists (List.combine os1 gs1), (List.combine os2 gs2). split; auto.
      intros h g' Hin ->. apply N1 in Hin. discriminate.
Qed.

(* ---------- registration ---------- *)

Lemma isConvertibleTo_refl H a : isConvertibleTo H a a = Ok MExact.
Proof. unfold isConvertibleTo. now rewrite (proj2 (arg_eqb_eq a a) eq_refl). Qed.

Lemma testReturn_refl H a : testReturn H a a = Ok MExact.
Proof.
  unfold testReturn. destruct (Nat.eqb _ _); auto. rewrite isConvertibleTo_refl. cbn.
  destruct a as [t r c]; destruct r, c; reflexivity.
Qed.

Lemma testArguments_refl H l : testArguments H l l = Ok MExact.
Proof.
  unfold testArguments. rewrite Nat.eqb_refl. cbn [negb].
  induction l as [|a l IH]; cbn; auto. rewrite isConvertibleTo_refl. cbn. auto.
Qed.

Lemma test_fn_same_sig H f g : f_ret f = f_ret g -> f_args f = f_args g -> test_fn H f g = Ok MExact.
Proof.
  intros E1 E2. unfold test_fn. rewrite E1, E2, testReturn_refl, testArguments_refl. reflexivity.
Qed.

Lemma add_check_spec H f os : add_check H f os = Ok tt ->
  forall o, In o os -> exists m, test_fn H f o = Ok m /\ m <> MExact.
Proof.
  induction os as [|o os IH]; cbn; intros E o' Hin; [destruct Hin|].
  apply bind_Ok in E as (m & Em & E).
  destruct (grade_eqb m MExact) eqn:Eg; cbn in E; [discriminate|].
  destruct Hin as [<-|Hin]; [|auto].
  exists m. split; auto. intros ->. discriminate.
Qed.

Lemma add_check_abort H f os o :
  (forall x, In x os -> exists m, test_fn H f x = Ok m) ->
  In o os -> test_fn H f o = Ok MExact -> add_check H f os = Abort.
Proof.
  induction os as [|x os IH]; cbn; intros T Hin E; [destruct Hin|].
  destruct (T x (or_introl eq_refl)) as [m Em]. rewrite Em. cbn [bind].
  destruct (grade_eqb m MExact) eqn:Eg; cbn; auto.
  apply IH; auto. destruct Hin as [<-|Hin]; auto.
  rewrite Em in E. injection E as ->. discriminate.
Qed.

Lemma overloads_add_app H os f os' : overloads_add H os f = Ok os' -> os' = os ++ [f].
Proof. unfold overloads_add. intro E. apply bind_Ok in E as ([] & _ & E). congruence. Qed.

Definition sig_of (f : fn) := (f_ret f, f_args f).

Lemma Built_NoDup os : Built os -> NoDup (map sig_of os).
Proof.
  induction 1 as [|H os f os' B IH E]; [constructor|].
  pose proof (overloads_add_app _ _ _ _ E) as ->.
  unfold overloads_add in E. apply bind_Ok in E as ([] & Ec & _).
  rewrite map_app. cbn. apply NoDup_rev in IH.
  rewrite <- (rev_involutive (map sig_of os ++ [sig_of f])). apply NoDup_rev.
  rewrite rev_app_distr. cbn. constructor; auto.
  rewrite <- in_rev. intro Hin. apply in_map_iff in Hin as (o & Eo & Ho).
  destruct (add_check_spec _ _ _ Ec o Ho) as (m & Em & Nm).
  unfold sig_of in Eo. injection Eo as E1 E2.
  rewrite test_fn_same_sig in Em by auto. congruence.
Qed.

Lemma BuiltIn_pairwise H os : BuiltIn H os -> forall os1 f os2 g os3,
  os = os1 ++ f :: os2 ++ g :: os3 -> exists m, test_fn H g f = Ok m /\ m <> MExact.
Proof.
  induction 1 as [|os f0 os' B IH E]; intros os1 f os2 g os3 Eq.
  - destruct os1; discriminate.
  - pose proof (overloads_add_app _ _ _ _ E) as ->.
    unfold overloads_add in E. apply bind_Ok in E as ([] & Ec & _).
    destruct os3 as [|z os3 _] using rev_ind.
    + assert (Eq' : os ++ [f0] = (os1 ++ f :: os2) ++ [g]) by (rewrite Eq, <- app_assoc; reflexivity).
      apply app_inj_tail in Eq' as [-> ->].
      apply (add_check_spec _ _ _ Ec). apply in_app_iff. right. now left.
    + assert (Eq' : os ++ [f0] = (os1 ++ f :: os2 ++ g :: os3) ++ [z]).
      { rewrite Eq. repeat (rewrite <- app_assoc; cbn). reflexivity. }
      apply app_inj_tail in Eq' as [-> ->]. eapply IH; eauto.
Qed.

(* ---------- copiable / movable ---------- *)

Lemma copy_to_move H T t m : wf_heap H -> valid H T -> arg_valid H t ->
  isConvertibleTo H (Arg T Copy false) t = Ok m -> m <> MNone ->
  exists m', isConvertibleTo H (Arg T RValue false) t = Ok m' /\ m' <> MNone.
Proof.
  intros W V Vt E Hm. unfold isConvertibleTo in *. cbn [a_type a_ref a_const] in *.
  destruct (arg_eqb (Arg T RValue false) t) eqn:Eq'; [exists MExact; split; [auto|discriminate]|].
  destruct (xorb _ _) eqn:Ex; [exists MExact; split; [auto|discriminate]|].
  destruct (arg_eqb (Arg T Copy false) t) eqn:Eq.
  - apply arg_eqb_eq in Eq. subst t. cbn [a_type a_ref a_const] in *.
    clear E Eq' Ex.
    destruct (hasConverter_total H T T W V V) as [c Ec]. rewrite Ec. cbn [bind].
    destruct c; [exists MPartial; split; [auto|discriminate]|].
    cbn. unfold isParentOf, isChildOf, fuel_of. cbn. rewrite Nat.eqb_refl. cbn.
    exists MExact. split; [auto|discriminate].
  - destruct (hasConverter H T (a_type t)) as [c| | | |] eqn:Ec; cbn [bind] in *; try discriminate.
    destruct c.
    + destruct (negb _); [eauto|congruence].
    + destruct t as [tt tr tc]; cbn [a_type a_ref a_const] in *.
      destruct (isParentOf H tt T) as [[|]| | | |];
      destruct tr, tc; cbn in E |- *; try congruence;
        (eexists; split; [reflexivity|discriminate]).
Qed.

(* the list version: an argument list that is one by-value object *)
Lemma copiable_movable H T : wf_heap H -> valid H T ->
  (forall t fns, tget H T = Some t -> function H T (t_id t) = Ok fns -> Forall (fn_valid H) fns) ->
  isCopiable H T = Ok true -> isMovable H T = Ok true.
Proof.
  intros W V Vf. unfold isCopiable, isMovable.
  destruct (tget H T) as [t|] eqn:Et; [|discriminate]. intro E.
  apply bind_Ok in E as (has & Eh & E). rewrite Eh. cbn [bind].
  destruct has; cbn [negb] in *; [|discriminate].
  apply bind_Ok in E as (fns & Ef & E). rewrite Ef. cbn [bind].
  specialize (Vf t fns eq_refl Ef). clear Ef Eh.
  induction Vf as [|f fns Vf Vfs IH]; cbn in *; [discriminate|].
  apply bind_Ok in E as (m & Em & E).
  assert (A1 : arg_valid H (Arg T Copy false)) by exact V.
  destruct (test_sig_total H f (Arg T Copy false) [Arg T RValue false] W Vf A1) as [m' Em'].
  { constructor; [exact V|constructor]. }
  rewrite Em'. cbn [bind].
  destruct (grade_eqb m' MNone) eqn:En'; cbn [negb]; auto.
  destruct (grade_eqb m MNone) eqn:En; cbn [negb] in E; auto.
  exfalso. apply grade_eqb_eq in En'. subst m'.
  assert (Hm : m <> MNone) by (intros ->; discriminate). clear E En IH Vfs.
  unfold test_sig in Em, Em'.
  apply bind_Ok in Em as (r & Er & Em). rewrite Er in Em'. cbn [bind] in Em'.
  apply bind_Ok in Em as (a & Ea & Em). injection Em as <-.
  unfold testArguments in Ea, Em'. cbn [length] in Ea, Em'.
  destruct Vf as [_ Va]. destruct (f_args f) as [|t1 [|t2 ts]]; cbn [length Nat.eqb negb] in Ea, Em'.
  1,3: injection Ea as <-; destruct r; cbn in Hm; congruence.
  cbn [testArguments_loop] in Ea, Em'.
  apply bind_Ok in Ea as (c & Ec & Ea).
  assert (Hc : c <> MNone).
  { intros ->. cbn in Ea. injection Ea as <-. destruct r; cbn in Hm; congruence. }
  destruct (copy_to_move H T t1 c W V) as (c' & Ec' & Hc'); auto.
  { inversion Va; auto. }
  rewrite Ec' in Em'. cbn [bind] in Em'.
  destruct r, c'; cbn in Em'; try congruence; cbn in Hm; congruence.
Qed.
