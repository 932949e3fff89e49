(* ProofLoad3.v - the library's own bodies never fail to load, whatever is already
   loaded. *)
From Coq Require String.
Import String.StringSyntax.
From Coq Require Import Relations Permutation.
From Verif Require Import Base ModelCore SpecCore ProofCore ProofMatch ProofCore2 ModelPlumb SpecPlumb ProofPlumb
  ProofPlumb2 ProofPlumb3 ModelLoad SpecLoad ProofLoad ProofLoad2.
Local Open Scope outcome_scope.

Lemma descends_step P a b : descends P a b -> a = b \/ (exists p, In (LParent p) (body_of P a)) \/
  exists k pa pb, In (LReg (RPointer k pa)) (body_of P a) /\ In (LReg (RPointer k pb)) (body_of P b).
Proof. intros [c|c p d I _|c d k pa pb I J _]; eauto 8. Qed.

Section Lib.
Context (P : program) (S0 : sane P) (OP : one_pointer P) (T : tptr) (id : str).
Context (ET : nth_error (p_decls P) T = Some (Decl id (body_of P T))) (PB : plain_body P T).

(* everything loaded except T *)
Definition almost : heap :=
  set_type (Heap (map (fun d => lbuilt (d_id d) (d_body d)) (p_decls P)) (p_void P) (p_value P)) T (newType id).

Lemma full_valid : valid (Heap (map (fun d => lbuilt (d_id d) (d_body d)) (p_decls P)) (p_void P) (p_value P)) T.
Proof. unfold valid. cbn. rewrite map_length. apply nth_error_Some. congruence. Qed.
Lemma almost_fresh : fresh almost T id.
Proof. unfold fresh, almost. now rewrite tget_set_eq by exact full_valid. Qed.
Lemma almost_other X d : X <> T -> nth_error (p_decls P) X = Some d -> tget almost X = Some (lbuilt (d_id d) (d_body d)).
Proof.
  intros N E. unfold almost. rewrite tget_set_neq by (auto using full_valid). unfold tget. cbn. rewrite nth_error_map, E. reflexivity.
Qed.
Lemma almost_stage : stage P almost.
Proof.
  split.
  - unfold shaped, almost, set_type. cbn. rewrite length_set_nth, map_length. auto.
  - intros U d E. destruct (Nat.eq_dec U T) as [->|N].
    + rewrite ET in E. injection E as <-. exists [], (body_of P T). split; [reflexivity|]. exact almost_fresh.
    + exists (d_body d), []. split; [now rewrite app_nil_r|]. now apply almost_other.
Qed.
Lemma almost_wf : wf_heap almost.
Proof. apply (stage_wf P S0), almost_stage. Qed.
Lemma almost_value : h_value almost = p_value P. Proof. reflexivity. Qed.
Lemma almost_void : h_void almost = p_void P. Proof. reflexivity. Qed.

Lemma declared_points X k p : X <> T -> In (LReg (RPointer k p)) (body_of P X) -> exists q, points_to almost X k q.
Proof.
  intros N I. destruct (nth_error (p_decls P) X) as [d|] eqn:E; [|unfold body_of in I; rewrite E in I; destruct I].
  pose proof (body_at P _ _ E) as B. rewrite B in I.
  destruct (lbuilt_loaded (d_id d) (d_body d)) as (_ & L2 & L3 & L4 & _).
  destruct (loaded_spec (d_id d) (regs (d_body d))) as (_ & _ & _ & I4 & I5 & _).
  destruct (pointer_of (regs (d_body d))) as [[k' p']|] eqn:Ep.
  - destruct (I5 _ _ eq_refl) as [E1 E2]. exists p'.
    assert (Ek : k' = k). { apply (OP X k' k p' p); rewrite B; auto. apply In_regs. now apply pointer_of_In. } rewrite Ek in Ep, E1.
    exists (lbuilt (d_id d) (d_body d)). split; [now apply almost_other|]. rewrite L2, L3, L4, I4. split; [|auto].
    apply In_traits_of. right. split; auto. exists k, p'. apply pointer_of_In. congruence.
  - exfalso. apply (pointer_of_none _ k p Ep). now apply In_regs.
Qed.

Lemma alien_unrelated X : alien almost T (regs (body_of P T)) X -> ~ descends P T X.
Proof.
  intros (N & _ & _ & Q) D. destruct (descends_step P T X D) as [<-|[(p & I)|(k & pa & pb & I & J)]].
  - now apply N.
  - destruct (PB _ I) as [(u & E)|(g & E)]; discriminate.
  - destruct (declared_points X k pb N J) as (q & Pq). apply (Q k q pa Pq). now apply In_regs.
Qed.

Lemma loadable_kept : loadable almost T id (regs (body_of P T)) -> kept P T.
Proof.
  intros L. pose proof (ld_pairs _ _ _ _ L) as FP. constructor.
  - apply (sa_known P S0).
  - intros n a off I. destruct (PB _ I) as [(u & E)|(g & E)]; discriminate.
  - replace (flat_map _ (body_of P T)) with (@nil str); [constructor|]. symmetry.
    assert (F := PB). unfold plain_body in F. clear - F. induction (body_of P T) as [|r l IH]; auto. cbn. rewrite IH by (intros x Ix; apply F; now right).
    destruct (F r (or_introl eq_refl)) as [(u & ->)|(g & ->)]; reflexivity.
  - intros n a off I. destruct (PB _ I) as [(u & E)|(g & E)]; discriminate.
  - pose proof (ld_traits _ _ _ _ L) as NT. clear - FP NT. remember (before almost T (regs (body_of P T))) as R.
    assert (HR : forall a b, R (RTrait a) (RTrait b) -> a <> b) by (intros a b; subst R; auto).
    assert (HR2 : forall k p k' p', R (RPointer k p) (RPointer k' p') -> False) by (intros k p k' p'; subst R; auto). clear HeqR.
    induction FP as [|r l F1 F2 IH]; [constructor|]. rewrite Forall_forall in F1.
    assert (IH' : NoDup (traits_of l)) by (apply IH; intro I; apply NT; now right).
    destruct r as [a|n ret args code|k p]; cbn; auto; constructor; auto.
    + intro I. fold (traits_of l) in I. apply In_traits_of in I as [I|(-> & k & p & I)].
      * now apply (HR a a (F1 _ I)).
      * apply NT. now left.
    + intro I. fold (traits_of l) in I. apply In_traits_of in I as [I|(_ & k' & p' & I)].
      * apply NT. now right.
      * exact (HR2 _ _ _ _ (F1 _ I)).
  - apply (sa_pointer P S0).
  - eapply FOP_incl; [|exact FP]. intros x y B. destruct x as [|n r1 old c1|]; try exact Logic.I. destruct y as [|m r2 new c2|]; try exact Logic.I.
    unfold overload_pair. unfold before in B. intro E. destruct (B E) as [D|(i & a & t & E1 & E2 & D)]; [now left|right].
    exists i, a, t. split; [exact E1|]. split; [exact E2|]. destruct D as [D|(Ea & A)]; [now left|right].
    rewrite Ea. pose proof A as (A1 & A2 & A3 & _). split; [exact A3|]. split; [exact A2|]. now apply alien_unrelated.
Qed.

Lemma may_point_declared k p : In (LReg (RPointer k p)) (body_of P T) -> may_point almost T p.
Proof.
  intro I. split.
  - unfold valid. rewrite (proj1 (proj1 almost_stage)). apply (sa_known P S0 T p). exists (LReg (RPointer k p)). split; [exact I|constructor].
  - destruct (sa_acyclic P S0) as (rank & R). exists rank. split.
    + intros a q Lk. apply R. exact (stage_link P almost a q almost_stage Lk).
    + apply R. right. eauto.
Qed.

Lemma asked_valid r U : In r (regs (body_of P T)) -> In U (asks (LReg r)) -> valid almost U.
Proof.
  intros I J. unfold valid. rewrite (proj1 (proj1 almost_stage)). apply (sa_known P S0 T U). exists (LReg r). split; [now apply In_regs|now apply mentions_asks].
Qed.
Lemma T_valid : valid almost T.
Proof. eapply tget_valid. exact almost_fresh. Qed.
End Lib.

Tactic Notation "av" constr(S0) constr(ET) constr(E) integer(n) := eapply (asked_valid _ S0 _ _ ET);
   [rewrite E; unfold rawPointer, number, stdString, stdVector, stdMap;
    apply in_or_app; right; cbn -[lit]; do n right; left; reflexivity | cbn; auto ].

Lemma library_kept P T : sane P -> one_pointer P -> plain_body P T -> T < length (p_decls P) -> T <> p_value P ->
  library P T -> kept P T.
Proof.
  intros S0 OP PB VT NV Lb.
  assert (Rest : forall rs, regs (body_of P T) = rs -> (forall r, In r rs -> exists n, r = RTrait n) -> NoDup (traits_of rs) -> kept P T).
  { intros rs E A N. constructor.
    - apply (sa_known P S0).
    - intros n a off I. destruct (PB _ I) as [(u & X)|(g & X)]; discriminate.
    - replace (flat_map _ (body_of P T)) with (@nil str); [constructor|]. symmetry.
      assert (F := PB). unfold plain_body in F. clear - F. induction (body_of P T) as [|r l IH]; auto. cbn. rewrite IH by (intros x Ix; apply F; now right).
      destruct (F r (or_introl eq_refl)) as [(u & ->)|(g & ->)]; reflexivity.
    - intros n a off I. destruct (PB _ I) as [(u & X)|(g & X)]; discriminate.
    - now rewrite E.
    - apply (sa_pointer P S0).
    - rewrite E. clear - A. induction rs as [|r l IH]; constructor; [|apply IH; intros; apply A; now right].
      apply Forall_forall. intros y _. destruct (A r (or_introl eq_refl)) as (n & ->). exact Logic.I. }
  destruct Lb as [E|E|id k b ET NO E|id p B k b ET NO E|id PT R n k b ET NI E|PT Z k b ET E|vid V Z k b ET E|prefix kid vid K V KV Z k b Pr ET E|pid p PP B k b ET IP NP E|pid p PP B k b ET IP NP E].
  - apply (Rest _ E); [intros r []|constructor].
  - apply (Rest _ E); [|cbn -[lit]; repeat constructor; intros X; cbn -[lit] in X; intuition discriminate].
    intros r [<-|[<-|[]]]; eauto.
  - apply (loadable_kept P S0 OP T _ ET PB). rewrite E.
    apply plumbing_loadable; auto; [apply (almost_wf P S0 T _ ET)|apply (almost_fresh P T _ ET)].
  - apply (loadable_kept P S0 OP T _ ET PB). rewrite E.
    assert (MP : may_point (almost P T (id ++ lit "*")) T p).
    { apply (may_point_declared P S0 T _ ET (lit "*")). apply In_regs. rewrite E. unfold rawPointer. apply in_or_app. right. right. now left. }
    apply (extension_loadable _ T _ k b (plumbing (id ++ lit "*") T all_caps b ++ pointer_ext T p B b) (pointer_ext T p B b) eq_refl);
      [apply (almost_wf P S0 T _ ET)|apply (almost_fresh P T _ ET)|apply (star_not_op id NO)|].
    apply pointer_extension; auto; [apply (T_valid P T _ ET)|]. av S0 ET E 2.
  - apply (loadable_kept P S0 OP T _ ET PB). rewrite E.
    apply (extension_loadable _ T _ k b (plumbing id T all_caps b ++ number_ext T PT R n b) (number_ext T PT R n b) eq_refl);
      [apply (almost_wf P S0 T _ ET)|apply (almost_fresh P T _ ET)|intros ->; apply NI; now left|].
    apply number_extension; [intros ->; apply NI; right; now left|intros ->; apply NI; right; right; now left|apply (T_valid P T _ ET)| |].
    + eapply (asked_valid _ S0 _ _ ET); [rewrite E; unfold number; apply in_or_app; right; apply in_or_app; left; cbn -[lit]; left; reflexivity|cbn; auto].
    + eapply (asked_valid _ S0 _ _ ET); [rewrite E; unfold number; apply in_or_app; right; apply in_or_app; left; cbn -[lit]; do 4 right; left; reflexivity|cbn; auto].
  - apply (loadable_kept P S0 OP T _ ET PB). rewrite E.
    apply (extension_loadable _ T _ k b (plumbing (lit "std::string") T all_caps b ++ string_ext T PT Z b) (string_ext T PT Z b) eq_refl);
      [apply (almost_wf P S0 T _ ET)|apply (almost_fresh P T _ ET)|discriminate|].
    apply string_extension; try discriminate; [apply (T_valid P T _ ET)| |]; [av S0 ET E 0|av S0 ET E 2].
  - apply (loadable_kept P S0 OP T _ ET PB). rewrite E.
    set (id := lit "std::vector<" ++ vid ++ lit ">") in *.
    apply (extension_loadable _ T _ k b (plumbing id T all_caps b ++ vector_ext T V Z (p_void P) b) (vector_ext T V Z (p_void P) b) eq_refl);
      [apply (almost_wf P S0 T _ ET)|apply (almost_fresh P T _ ET)|discriminate|].
    apply (vector_extension (almost P T id)); [apply (T_valid P T _ ET)| | |].
    + eapply (asked_valid _ S0 _ _ ET); [rewrite E; unfold stdVector; apply in_or_app; right; cbn -[lit]; do 7 right; left; reflexivity|cbn; auto].
    + eapply (asked_valid _ S0 _ _ ET); [rewrite E; unfold stdVector; apply in_or_app; right; cbn -[lit]; do 2 right; left; reflexivity|cbn; auto].
    + apply (wf_void _ (almost_wf P S0 T _ ET)).
  - apply (loadable_kept P S0 OP T _ ET PB). rewrite E.
    set (id := prefix ++ kid ++ lit "," ++ vid ++ lit ">") in *.
    apply (extension_loadable _ T _ k b (plumbing id T all_caps b ++ map_ext T K V KV Z b) (map_ext T K V KV Z b) eq_refl);
      [apply (almost_wf P S0 T _ ET)|apply (almost_fresh P T _ ET)|unfold id; destruct Pr as [->| ->]; discriminate|].
    apply (map_extension (almost P T id)); [exact Pr|apply (T_valid P T _ ET)| | | |].
    + eapply (asked_valid _ S0 _ _ ET); [rewrite E; unfold stdMap; apply in_or_app; right; cbn -[lit]; do 4 right; left; reflexivity|cbn; auto].
    + eapply (asked_valid _ S0 _ _ ET); [rewrite E; unfold stdMap; apply in_or_app; right; cbn -[lit]; do 5 right; left; reflexivity|cbn; auto].
    + eapply (asked_valid _ S0 _ _ ET); [rewrite E; unfold stdMap; apply in_or_app; right; cbn -[lit]; do 7 right; left; reflexivity|cbn; auto].
    + eapply (asked_valid _ S0 _ _ ET); [rewrite E; unfold stdMap; apply in_or_app; right; cbn -[lit]; do 3 right; left; reflexivity|cbn; auto].
  - assert (SM : forall shared pid0, pid0 = pid -> smart_id shared pid0 = (if shared then lit "std::shared_ptr<" else lit "std::unique_ptr<") ++ pid ++ lit ">") by (intros [|] ? ->; reflexivity).
    apply (loadable_kept P S0 OP T _ ET PB). rewrite E. unfold sharedPtr, smartPtr. rewrite <- app_assoc.
    assert (MP : may_point (almost P T (lit "std::shared_ptr<" ++ pid ++ lit ">")) T p).
    { apply (may_point_declared P S0 T _ ET (lit "std::shared_ptr")). apply In_regs. rewrite E. now left. }
    assert (NPT : PP <> T).
    { intros ->. assert (X : lit "*" = lit "std::shared_ptr"); [|discriminate X]. apply (OP T _ _ p p); auto. apply In_regs. rewrite E. now left. }
    assert (NK : forall q, ~ points_to (almost P T (lit "std::shared_ptr<" ++ pid ++ lit ">")) PP (smart_kind true) q).
    { intros q Q. destruct (declared_points P OP T _ ET PP _ _ NPT IP) as (q' & Q').
      destruct (points_to_fun _ _ _ _ _ _ Q Q') as [X _]. discriminate X. }
    destruct (smart_extension (almost P T (lit "std::shared_ptr<" ++ pid ++ lit ">")) true T p PP B pid b) as [X NPx]; auto.
    + apply (T_valid P T _ ET).
    + eapply (asked_valid _ S0 _ _ ET); [rewrite E; unfold sharedPtr, smartPtr; right; apply in_or_app; left; apply in_or_app; right; cbn -[lit]; do 3 right; left; reflexivity|cbn; auto].
    + apply MP.
    + eapply (asked_valid _ S0 _ _ ET); [rewrite E; unfold sharedPtr, smartPtr; right; apply in_or_app; left; apply in_or_app; right; cbn -[lit]; left; reflexivity|cbn; auto].
    + apply (wf_void _ (almost_wf P S0 T _ ET)).
    + eapply pointer_first_loadable; [reflexivity|apply (almost_wf P S0 T _ ET)|apply (almost_fresh P T _ ET)|discriminate|exact MP|exact NPx|exact X].
  - apply (loadable_kept P S0 OP T _ ET PB). rewrite E. unfold uniquePtr, smartPtr. rewrite <- app_assoc.
    assert (MP : may_point (almost P T (lit "std::unique_ptr<" ++ pid ++ lit ">")) T p).
    { apply (may_point_declared P S0 T _ ET (lit "std::unique_ptr")). apply In_regs. rewrite E. now left. }
    assert (NPT : PP <> T).
    { intros ->. assert (X : lit "*" = lit "std::unique_ptr"); [|discriminate X]. apply (OP T _ _ p p); auto. apply In_regs. rewrite E. now left. }
    assert (NK : forall q, ~ points_to (almost P T (lit "std::unique_ptr<" ++ pid ++ lit ">")) PP (smart_kind false) q).
    { intros q Q. destruct (declared_points P OP T _ ET PP _ _ NPT IP) as (q' & Q').
      destruct (points_to_fun _ _ _ _ _ _ Q Q') as [X _]. discriminate X. }
    destruct (smart_extension (almost P T (lit "std::unique_ptr<" ++ pid ++ lit ">")) false T p PP B pid b) as [X NPx]; auto.
    + apply (T_valid P T _ ET).
    + eapply (asked_valid _ S0 _ _ ET); [rewrite E; unfold uniquePtr, smartPtr; right; apply in_or_app; left; apply in_or_app; right; cbn -[lit]; do 3 right; left; reflexivity|cbn; auto].
    + apply MP.
    + eapply (asked_valid _ S0 _ _ ET); [rewrite E; unfold uniquePtr, smartPtr; right; apply in_or_app; left; apply in_or_app; right; cbn -[lit]; left; reflexivity|cbn; auto].
    + apply (wf_void _ (almost_wf P S0 T _ ET)).
    + eapply pointer_first_loadable; [reflexivity|apply (almost_wf P S0 T _ ET)|apply (almost_fresh P T _ ET)|discriminate|exact MP|exact NPx|exact X].
Qed.
