(* ProofLoad2.v - loading on demand: when it succeeds. *)
From Coq Require String.
Import String.StringSyntax.
From Coq Require Import Relations.
From Verif Require Import Base ModelCore SpecCore ProofCore ProofMatch ProofCore2 ModelPlumb SpecPlumb ProofPlumb ModelLoad SpecLoad ProofLoad.
Local Open Scope outcome_scope.

Lemma NoDup_apart {A} (l m : list A) : NoDup (l ++ m) -> forall x, In x l -> In x m -> False.
Proof.
  induction l as [|a l IH]; cbn; intros N x I J; [contradiction|]. inversion N as [|? ? N1 N2]; subst. destruct I as [->|I]; [|eauto].
  apply N1. apply in_or_app. now right.
Qed.

Lemma well_kept_sane P : well_kept P -> sane P.
Proof.
  intros [V W A K].
  assert (X : forall T, T < length (p_decls P) \/ body_of P T = []).
  { intro T. unfold body_of. destruct (nth_error (p_decls P) T) eqn:E; [|auto]. left. apply nth_error_Some. congruence. }
  constructor; auto.
  - intros T U N. destruct (X T) as [L|L]; [apply (ke_known _ _ (K T L) U N)|]. destruct N as (r & I & _). rewrite L in I. destruct I.
  - intros T I. destruct (X T) as [L|L]; [apply (ke_pointer _ _ (K T L) I)|]. rewrite L in I. destruct I.
Qed.

(* some prefix of each body has been run *)
Definition stage (P : program) (H : heap) : Prop := shaped P H /\ forall U d, nth_error (p_decls P) U = Some d ->
  exists pre post, d_body d = pre ++ post /\ tget H U = Some (lbuilt (d_id d) pre).

Section Progress.
Context (P : program) (S : sane P).

Lemma body_at U d : nth_error (p_decls P) U = Some d -> body_of P U = d_body d.
Proof. unfold body_of. now intros ->. Qed.

Lemma stage_tget H U t : stage P H -> tget H U = Some t -> exists d pre post,
  nth_error (p_decls P) U = Some d /\ d_body d = pre ++ post /\ t = lbuilt (d_id d) pre.
Proof.
  intros [(L & _) St] Et. destruct (nth_error (p_decls P) U) as [d|] eqn:Ed.
  - destruct (St U d Ed) as (pre & post & E1 & E2). exists d, pre, post. split; [reflexivity|]. split; [exact E1|]. congruence.
  - exfalso. apply nth_error_None in Ed. rewrite <- L in Ed. assert (nth_error (h_types H) U = None) by now apply nth_error_None.
    unfold tget in Et. congruence.
Qed.
Lemma lbuilt_pointee id rs p : t_pointee (lbuilt id rs) = Some p -> exists k, In (LReg (RPointer k p)) rs.
Proof.
  destruct (lbuilt_loaded id rs) as (_ & _ & _ & -> & _). destruct (loaded_spec id (regs rs)) as (_ & _ & _ & _ & I5 & I6 & _).
  destruct (pointer_of (regs rs)) as [[k q]|] eqn:Ep.
  - destruct (I5 k q eq_refl) as [_ ->]. intro E. injection E as ->. exists k. apply In_regs, pointer_of_In, Ep.
  - destruct (I6 eq_refl) as [_ ->]. discriminate.
Qed.

Lemma stage_link H a p : stage P H -> link H a p ->
  In (LParent p) (body_of P a) \/ exists k, In (LReg (RPointer k p)) (body_of P a).
Proof.
  intros St (t & Et & Hl). destruct (stage_tget _ _ _ St Et) as (d & pre & post & Ed & Eb & ->).
  rewrite (body_at _ _ Ed), Eb. destruct Hl as [Hp|Hp].
  - left. apply in_or_app. left. apply parent_decl_In. now rewrite <- (lbuilt_parent (d_id d)).
  - right. apply lbuilt_pointee in Hp as (k & I). exists k. apply in_or_app. auto.
Qed.

Lemma asked a p : In (LParent p) (body_of P a) \/ (exists k, In (LReg (RPointer k p)) (body_of P a)) -> names P a p.
Proof. intros [I|(k & I)]; [exists (LParent p)|exists (LReg (RPointer k p))]; split; auto; constructor. Qed.

Lemma lbuilt_ptr id rs : ~ In (RTrait (lit "pointer")) (regs rs) -> In (lit "pointer") (t_traits (lbuilt id rs)) ->
  exists k p, t_pointer (lbuilt id rs) = k /\ t_pointee (lbuilt id rs) = Some p /\ In (LReg (RPointer k p)) rs.
Proof.
  intros N I. destruct (lbuilt_loaded id rs) as (_ & L2 & L3 & L4 & _). destruct (loaded_spec id (regs rs)) as (_ & _ & _ & I4 & I5 & I6 & _).
  rewrite L2, I4, In_traits_of in I. destruct I as [I|(_ & k & p & I)]; [contradiction|].
  destruct (pointer_of (regs rs)) as [[k' q]|] eqn:Ep; [|exfalso; eapply pointer_of_none; eauto].
  destruct (I5 k' q eq_refl) as [E1 E2]. exists k', q. rewrite L3, L4. split; [exact E1|]. split; [exact E2|]. apply In_regs, pointer_of_In, Ep.
Qed.

Lemma stage_wf H : stage P H -> wf_heap H.
Proof.
  intro St. destruct St as [(L & Vo & Va) St0] eqn:Q. clear Q. constructor.
  - intros a p K. unfold valid. rewrite L. apply (sa_known P S a p). apply asked. apply (stage_link H a p St K).
  - intros a (t & Et & I). destruct (stage_tget _ _ _ St Et) as (d & pre & post & Ed & Eb & ->).
    destruct (lbuilt_ptr (d_id d) pre) as (k & p & E1 & E2 & E3); auto.
    { intro X. apply (sa_pointer P S a). rewrite (body_at _ _ Ed), Eb, regs_app. apply in_or_app. auto. }
    exists k, p, (lbuilt (d_id d) pre). auto.
  - destruct (sa_acyclic P S) as (rank & R). exists rank. intros a p K. apply R. apply (stage_link H a p St K).
  - unfold valid. rewrite L, Vo. apply (sa_void P S).
  - unfold valid. rewrite L, Va. apply (sa_value P S).
Qed.

(* below in some stage of the load: below by declaration *)
Lemma stage_subtype H a b : stage P H -> Subtype H a b -> descends P a b.
Proof.
  intros St Sb. induction Sb as [a|a p b Pa NP Sb IH|a b k pa pb Pa Pb Sb IH].
  - constructor.
  - destruct Pa as (t & Et & Ep). destruct (stage_tget _ _ _ St Et) as (d & pre & post & Ed & Eb & ->).
    apply (De_parent P a p b); [|exact IH]. rewrite (body_at _ _ Ed), Eb. apply in_or_app. left. apply parent_decl_In.
    now rewrite <- (lbuilt_parent (d_id d)).
  - assert (X : forall x q, points_to H x k q -> In (LReg (RPointer k q)) (body_of P x)).
    { intros x q (t & Et & Ip & Ek & Eq). destruct (stage_tget _ _ _ St Et) as (d & pre & post & Ed & Eb & ->).
      destruct (lbuilt_ptr (d_id d) pre) as (k' & p' & E1 & E2 & E3); auto.
      { intro I. apply (sa_pointer P S x). rewrite (body_at _ _ Ed), Eb, regs_app. apply in_or_app. auto. }
      rewrite (body_at _ _ Ed), Eb. apply in_or_app. left. congruence. }
    eapply De_pointer; eauto.
Qed.

Lemma unlike_sound H a t m : stage P H -> arg_valid H a -> arg_valid H t -> unlike P a t ->
  isConvertibleTo H a t = Ok m -> m <> MExact.
Proof.
  intros St Va Vt U C ->. pose proof (stage_wf H St) as W. destruct St as [(L & Vo & Vl) St0] eqn:Q. clear Q.
  apply isConvertibleTo_iff_Grade in C; auto. destruct U as [(Et & NS)|(N1 & N2 & N3)].
  - inversion C; subst.
    + apply NS. left. auto.
    + match goal with X : one_is_value _ _ _ |- _ => destruct X as [[]|[]]; congruence end.
    + contradiction.
  - inversion C; subst.
    + apply N3. constructor.
    + match goal with X : one_is_value _ _ _ |- _ => destruct X as [[]|[]]; cbn in *; congruence end.
    + match goal with X : Subtype _ _ _ |- _ => apply N3, (stage_subtype H); auto end.
Qed.

Definition fine {A} (strict : bool) (r : outcome A) : Prop := (exists x, r = Ok x) \/ (strict = false /\ r = Abort).
Lemma fine_bind {A B} strict (r : outcome A) (f : A -> outcome B) : fine strict r -> (forall x, r = Ok x -> fine strict (f x)) -> fine strict (bind r f).
Proof. intros [(x & ->)|(-> & ->)] F; [apply F; reflexivity|right; auto]. Qed.
Lemma fine_abort {A} strict : (strict = true -> False) -> fine strict (@Abort A).
Proof. intro N. right. destruct strict; [exfalso; auto|auto]. Qed.

Lemma add_check_fine H f os strict : wf_heap H -> fn_valid H f -> Forall (fn_valid H) os ->
  (strict = true -> forall o m, In o os -> test_fn H f o = Ok m -> m <> MExact) -> fine strict (add_check H f os).
Proof.
  intros W V Vs N. induction Vs as [|o os Vo Vs IH]; cbn [add_check]; [left; eauto|].
  destruct (test_sig_total H f (f_ret o) (f_args o) W V (proj1 Vo) (proj2 Vo)) as [m Em]. change (test_fn H f o = Ok m) in Em.
  rewrite Em. cbn [bind]. destruct (grade_eqb m MExact) eqn:Eg; cbn [negb].
  - apply fine_abort. intros ->. apply grade_eqb_eq in Eg. apply (N eq_refl o m); auto. now left.
  - apply IH. intros -> o' m' I. apply N; auto. now right.
Qed.

Lemma lreg1_fine H T d pre r post strict : stage P H -> nth_error (p_decls P) T = Some d -> d_body d = pre ++ r :: post ->
  tget H T = Some (lbuilt (d_id d) pre) -> (strict = true -> kept P T) -> fine strict (lreg1 H T r).
Proof.
  intros St Ed Eb Et K. pose proof (stage_wf H St) as W.
  assert (Kn : forall x, In x (d_body d) -> forall U, In U (asks x) -> valid H U).
  { intros x I U J. unfold valid. destruct St as [(L & _) _]. rewrite L. apply (sa_known P S T U). exists x. rewrite (body_at _ _ Ed). split; [exact I|now apply mentions_asks]. }
  assert (Ir : In r (d_body d)) by (rewrite Eb; apply in_or_app; right; now left).
  assert (Ipre : forall x, In x pre -> In x (d_body d)) by (intros x I; rewrite Eb; apply in_or_app; auto).
  destruct (lbuilt_loaded (d_id d) pre) as (L1 & L2 & L3 & L4 & L5).
  destruct (loaded_spec (d_id d) (regs pre)) as (I1 & _ & _ & I4 & I5 & I6 & I7).
  assert (Trait : forall n, (In (LReg (RTrait n)) (r :: post) /\ n <> lit "pointer" \/ n = lit "pointer" /\ exists k p, r = LReg (RPointer k p)) ->
     (forall x y, regs (r :: post) = x :: y -> (x = RTrait n \/ n = lit "pointer" /\ exists k p, x = RPointer k p) -> 
     In n (t_traits (lbuilt (d_id d) pre)) -> strict = true -> False)).
  { intros n _ x y Er Hx I Es. pose proof (ke_traits _ _ (K Es)) as ND. rewrite (body_at _ _ Ed), Eb, regs_app, Er in ND.
    unfold traits_of in ND. rewrite flat_map_app in ND. rewrite L2, I4 in I. fold (traits_of (regs pre)) in ND.
    cbn [flat_map] in ND.
    assert (In n (match x with RTrait n0 => [n0] | RFn _ _ _ _ => [] | RPointer _ _ => [lit "pointer"] end)).
    { destruct Hx as [->|(-> & k & p & ->)]; now left. }
    apply (NoDup_apart _ _ ND n I). apply in_or_app. now left. }
  destruct r as [p|n a off|u|[n|n ret args code|k p]]; cbn [lreg1]; unfold reg1; rewrite ?Et.
  - left. eauto.
  - apply fine_bind.
    + unfold makeField. destruct (negb (ref_eqb (a_ref a) Copy)) eqn:E; [|left; eauto]. apply fine_abort. intro Es.
      assert (X : a_ref a = Copy) by (apply (ke_copies _ _ (K Es) n a off); rewrite (body_at _ _ Ed); auto).
      rewrite X in E. discriminate.
    + intros f Ef. apply fine_bind; [|intros t' _; left; eauto]. unfold addField. rewrite L5, I7.
      destruct (fns_of n (regs pre)) as [|x l] eqn:En.
      * destruct (afind n (t_fields (lbuilt (d_id d) pre))) as [f0|] eqn:Ef0; [|left; eauto]. apply fine_abort. intro Es.
        destruct (lbuilt_fields (d_id d) pre n) as [A _]. destruct (A _ Ef0) as (a' & off' & J & _).
        pose proof (ke_fields _ _ (K Es)) as ND. rewrite (body_at _ _ Ed), Eb, flat_map_app in ND. cbn [flat_map] in ND.
        apply (NoDup_apart _ _ ND n); [|now left]. apply in_flat_map. exists (LField n a' off'). split; [exact J|now left].
      * apply fine_abort. intro Es.
        assert (X : fns_of n (regs (body_of P T)) = []) by (apply (ke_members _ _ (K Es) n a off); rewrite (body_at _ _ Ed); auto).
        rewrite (body_at _ _ Ed), Eb, regs_app in X. unfold fns_of in X. rewrite flat_map_app in X. fold (fns_of n (regs pre)) in X.
        rewrite En in X. discriminate.
  - left. eauto.
  - unfold addTrait. destruct (smem n (t_traits (lbuilt (d_id d) pre))) eqn:Em; [|left; cbn; eauto]. apply fine_abort. intro Es.
    apply smem_In in Em. apply (Trait n) with (x := RTrait n) (y := regs post); auto.
    left. split; [now left|]. intros ->. apply (sa_pointer P S T). rewrite (body_at _ _ Ed). apply In_regs. exact Ir.
  - apply fine_bind; [|intros t' _; left; eauto]. unfold addFunction.
    destruct (afind n (t_fields (lbuilt (d_id d) pre))) as [f0|] eqn:Ef0.
    + apply fine_abort. intro Es. destruct (lbuilt_fields (d_id d) pre n) as [A _]. destruct (A _ Ef0) as (a' & off' & J & _).
      assert (X : fns_of n (regs (body_of P T)) = []) by (apply (ke_members _ _ (K Es) n a' off'); rewrite (body_at _ _ Ed); auto).
      assert (Y : In (Fn n ret args code) (fns_of n (regs (body_of P T)))).
      { apply In_fns_of. exists ret, args, code. split; [|reflexivity]. rewrite (body_at _ _ Ed). apply In_regs. exact Ir. }
      rewrite X in Y. destruct Y.
    + apply fine_bind; [|intros os _; left; eauto]. unfold overloads_add. apply fine_bind; [|intros u _; left; eauto].
      rewrite L5, I7.
      assert (Fv : forall m rt ar cd, In (LReg (RFn m rt ar cd)) (d_body d) -> fn_valid H (Fn m rt ar cd)).
      { intros m rt ar cd I. split.
        - unfold arg_valid. apply (Kn _ I). now left.
        - apply Forall_forall. intros x Ix. unfold arg_valid. apply (Kn _ I). right. now apply in_map. }
      assert (Os : forall o, In o (match (match fns_of n (regs pre) with [] => None | l => Some l end) with Some os => os | None => [] end) ->
         exists rt ar cd, In (RFn n rt ar cd) (regs pre) /\ o = Fn n rt ar cd).
      { intros o Io. apply In_fns_of. destruct (fns_of n (regs pre)); auto. }
      apply add_check_fine; auto.
      * apply Forall_forall. intros o Io. destruct (Os o Io) as (rt & ar & cd & J & ->). apply Fv. apply Ipre. now apply In_regs.
      * intros Es o m Io Em. destruct (Os o Io) as (rt & ar & cd & J & ->).
        apply (test_fn_not_exact H (Fn n ret args code) (Fn n rt ar cd) m Em).
        pose proof (ke_apart _ _ (K Es)) as FP. rewrite (body_at _ _ Ed), Eb, regs_app in FP. cbn in FP.
        apply FOP_app_inv in FP as (_ & _ & FP). specialize (FP _ (RFn n ret args code) J (or_introl eq_refl)). cbn in FP.
        destruct (FP eq_refl) as [D|(i & a & t & E1 & E2 & D)]; [now left|right].
        exists i, a, t. split; [exact E1|]. split; [exact E2|]. intros g Eg. apply (unlike_sound H a t g St); auto.
        { destruct (Fv n rt ar cd) as [_ X]; [apply Ipre; now apply In_regs|]. eapply Forall_forall; [exact X|]. eapply nth_error_In; eauto. }
        { destruct (Fv n ret args code Ir) as [_ X]. eapply Forall_forall; [exact X|]. eapply nth_error_In; eauto. }
  - apply fine_bind; [|intros t' _; left; eauto]. unfold setPointer, isPointer, is_trait, addTrait.
    destruct (smem (lit "pointer") (t_traits (lbuilt (d_id d) pre))) eqn:Em; [|left; cbn; eauto]. apply fine_abort. intro Es.
    apply smem_In in Em. apply (Trait (lit "pointer")) with (x := RPointer k p) (y := regs post); eauto.
Qed.

(* ---- enough fuel ---- *)
Definition todo (started : list tptr) : list tptr :=
  filter (fun U => negb (existsb (Nat.eqb U) started)) (seq 0 (length (p_decls P))).
Lemma filter_le {A} (f g : A -> bool) l : (forall x, In x l -> f x = true -> g x = true) -> length (filter f l) <= length (filter g l).
Proof.
  induction l as [|a l IH]; cbn; intro F; [lia|]. assert (IH' := IH (fun x I => F x (or_intror I))).
  destruct (f a) eqn:Ef; [rewrite (F a (or_introl eq_refl) Ef); cbn; lia|]. destruct (g a); cbn; lia.
Qed.
Lemma filter_lt {A} (f g : A -> bool) l z : (forall x, In x l -> f x = true -> g x = true) -> In z l -> f z = false -> g z = true ->
  length (filter f l) < length (filter g l).
Proof.
  induction l as [|a l IH]; cbn; intros F Iz Fz Gz; [contradiction|].
  assert (Fl := fun x I => F x (or_intror I)). destruct Iz as [->|Iz].
  - rewrite Fz, Gz. cbn. pose proof (filter_le f g l Fl). lia.
  - specialize (IH Fl Iz Fz Gz). destruct (f a) eqn:Ef; [rewrite (F a (or_introl eq_refl) Ef); cbn; lia|]. destruct (g a); cbn; lia.
Qed.
Lemma mem_iff U l : existsb (Nat.eqb U) l = true <-> In U l.
Proof.
  rewrite existsb_exists. split; [intros (x & I & E); apply Nat.eqb_eq in E as ->; exact I|]. intro I. exists U. split; auto. apply Nat.eqb_refl.
Qed.
Lemma todo_incl a b : incl a b -> length (todo b) <= length (todo a).
Proof.
  intro I. apply filter_le. intros x _ E. apply negb_true_iff in E. apply negb_true_iff. destruct (existsb (Nat.eqb x) a) eqn:Ea; auto.
  apply mem_iff in Ea. apply I, mem_iff in Ea. congruence.
Qed.
Lemma todo_mark T a : T < length (p_decls P) -> existsb (Nat.eqb T) a = false -> length (todo (T :: a)) < length (todo a).
Proof.
  intros L N. apply filter_lt with (z := T).
  - intros x _ E. apply negb_true_iff in E. cbn in E. apply orb_false_iff in E as [_ E]. now rewrite E.
  - apply in_seq. lia.
  - cbn. now rewrite Nat.eqb_refl.
  - now rewrite N.
Qed.

Lemma stage_grow ts st st' : stage P (l_heap st) -> grow P ts (fun _ => False) st st' -> stage P (l_heap st').
Proof.
  intros [Sh St] G. split; [apply (gr_shape _ _ _ _ _ G Sh)|]. intros U d Ed.
  destruct (in_dec_n U (l_started st)) as [I|I].
  - rewrite (gr_same _ _ _ _ _ G) by auto. auto.
  - destruct (in_dec_n U (l_started st')) as [J|J].
    + destruct (gr_new _ _ _ _ _ G U J I) as [(d' & E1 & E2 & _) _]. rewrite Ed in E1. injection E1 as <-.
      exists (d_body d), []. split; [now rewrite app_nil_r|exact E2].
    + rewrite (gr_rest _ _ _ _ _ G) by auto. auto.
Qed.

Definition progresses (strict : bool) (bound : nat) (g : lstate -> tptr -> outcome lstate) : Prop :=
  forall st T, length (todo (l_started st)) < bound -> T < length (p_decls P) -> blank P st -> stage P (l_heap st) -> fine strict (g st T).

Lemma load_each_fine strict bound g : lookup_ok P g -> progresses strict bound g -> forall ts st, 
  length (todo (l_started st)) < bound -> (forall t, In t ts -> t < length (p_decls P)) -> blank P st -> stage P (l_heap st) ->
  fine strict (load_each g st ts).
Proof.
  intros G Pg. induction ts as [|t ts IH]; intros st L V B St; cbn; [left; eauto|].
  apply fine_bind; [apply Pg; auto; apply V; now left|]. intros st1 E.
  destruct (G _ _ _ E B (proj1 St)) as (G1 & _ & B1 & _). apply IH; auto.
  - pose proof (todo_incl _ _ (gr_incl _ _ _ _ _ G1)). lia.
  - intros x I. apply V. now right.
  - eapply stage_grow; eauto.
Qed.

Lemma run_body_fine strict bound g T d : lookup_ok P g -> progresses strict bound g -> nth_error (p_decls P) T = Some d ->
  (strict = true -> kept P T) -> forall post pre st, d_body d = pre ++ post -> In T (l_started st) ->
    tget (l_heap st) T = Some (lbuilt (d_id d) pre) ->
    length (todo (l_started st)) < bound -> blank P st -> stage P (l_heap st) -> fine strict (run_body g T st post).
Proof.
  intros G Pg Ed K. induction post as [|r post IH]; intros pre st Eb IT Et L B St; cbn [run_body]; [left; eauto|].
  apply fine_bind.
  - apply (load_each_fine strict bound g G Pg); auto. intros t It. apply (sa_known P S T t). exists r. rewrite (body_at _ _ Ed), Eb.
    split; [apply in_or_app; right; now left|now apply mentions_asks].
  - intros st1 E1. destruct (load_each_ok P g G _ _ _ E1 B (proj1 St)) as (G1 & I1 & B1 & S1).
    assert (IT1 : In T (l_started st1)) by (apply (gr_incl _ _ _ _ _ G1); exact IT).
    assert (Et1 : tget (l_heap st1) T = Some (lbuilt (d_id d) pre)) by (rewrite (gr_same _ _ _ _ _ G1); auto).
    assert (St1 : stage P (l_heap st1)) by (eapply stage_grow; eauto).
    apply fine_bind; [eapply lreg1_fine; eauto|]. intros H' E2.
    destruct (lreg1_effect _ _ _ _ _ E2 Et1) as [-> _].
    assert (VT : valid (l_heap st1) T) by (eapply tget_valid; eauto).
    apply (IH (pre ++ [r])); cbn [l_heap l_started]; auto.
    + now rewrite <- app_assoc.
    + rewrite tget_set_eq by auto. now rewrite lbuilt_snoc.
    + pose proof (todo_incl _ _ (gr_incl _ _ _ _ _ G1)). lia.
    + intros U u Eu NU. cbn. rewrite tget_set_neq; auto. intros ->. contradiction.
    + split.
      * destruct S1 as (s1 & s2 & s3). unfold shaped. cbn. rewrite length_set_nth. auto.
      * intros U u Eu. destruct (Nat.eq_dec U T) as [->|NU].
        { rewrite Ed in Eu. injection Eu as <-. exists (pre ++ [r]), post. rewrite <- app_assoc. split; [exact Eb|].
          rewrite tget_set_eq by auto. now rewrite lbuilt_snoc. }
        rewrite tget_set_neq by auto. apply (proj2 St1). exact Eu.
Qed.

Lemma load_fine strict : (strict = true -> forall T, T < length (p_decls P) -> kept P T) -> forall n, progresses strict n (load_f n P).
Proof.
  intro K. induction n as [|n IH]; intros st T L V B St; [lia|]. cbn [load_f].
  destruct (existsb (Nat.eqb T) (l_started st)) eqn:Ex; [left; eauto|].
  destruct (nth_error (p_decls P) T) as [d|] eqn:Ed; [|exfalso; apply nth_error_None in Ed; lia].
  assert (NI : ~ In T (l_started st)) by (intro I; apply mem_iff in I; congruence).
  apply (run_body_fine strict n _ T d (load_ok P n) IH Ed) with (pre := []); cbn [l_heap l_started]; auto.
  - now left.
  - rewrite (B T d Ed NI). reflexivity.
  - apply (Nat.lt_le_trans _ _ _ (todo_mark T _ V Ex)). apply Nat.lt_succ_r. exact L.
  - intros U u Eu NU. apply B; auto. intro J. apply NU. now right.
Qed.

Lemma linit_stage : stage P (l_heap (linit P)).
Proof.
  split; [apply linit_shaped|]. intros U d Ed. exists [], (d_body d). split; [reflexivity|].
  cbn. unfold tget. cbn. now rewrite nth_error_map, Ed.
Qed.
Lemma todo_le l : length (todo l) <= length (p_decls P).
Proof.
  unfold todo. rewrite <- (seq_length (length (p_decls P)) 0) at 2. generalize (seq 0 (length (p_decls P))) as s.
  induction s as [|a s IH]; cbn; [lia|]. destruct (negb _); cbn; lia.
Qed.

Lemma run_loads_fine strict ts : (strict = true -> forall T, T < length (p_decls P) -> kept P T) ->
  (forall t, In t ts -> t < length (p_decls P)) -> fine strict (run_loads P ts).
Proof.
  intros K V. apply (load_each_fine strict (Datatypes.S (length (p_decls P)))); auto.
  - apply load_ok.
  - now apply load_fine.
  - pose proof (todo_le (l_started (linit P))). lia.
  - apply linit_blank.
  - apply linit_stage.
Qed.
End Progress.
