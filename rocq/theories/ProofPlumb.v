(* ProofPlumb.v - registration bodies: acceptance and effect. *)
From Coq Require String.
Import String.StringSyntax.
From Coq Require Import Permutation Relations.
From Verif Require Import Base ModelCore SpecCore ProofCore ProofMatch ProofCore2 ModelPlumb SpecPlumb.
Local Open Scope outcome_scope.

Lemma nth_set_nth {A} i (x : A) l j : i < length l ->
  nth_error (set_nth i x l) j = if Nat.eqb j i then Some x else nth_error l j.
Proof.
  unfold set_nth. revert l j; induction i as [|i IH]; intros [|y l] j L; cbn in L; try lia.
  - destruct j; reflexivity.
  - destruct j; [reflexivity|]. cbn [firstn skipn app nth_error Nat.eqb]. apply IH. lia.
Qed.
Lemma length_set_nth {A} i (x : A) l : length (set_nth i x l) = length l.
Proof.
  unfold set_nth. revert l; induction i as [|i IH]; intros [|y l]; cbn; auto.
Qed.
Lemma set_nth_twice {A} i (x y : A) l : set_nth i x (set_nth i y l) = set_nth i x l.
Proof.
  unfold set_nth. revert l; induction i as [|i IH]; intros [|z l]; cbn; auto. f_equal. apply IH.
Qed.

Lemma tget_set H T t u : valid H T -> tget (set_type H T t) u = if Nat.eqb u T then Some t else tget H u.
Proof. intro V. unfold tget, set_type; cbn. now apply nth_set_nth. Qed.
Lemma tget_set_eq H T t : valid H T -> tget (set_type H T t) T = Some t.
Proof. intro V. rewrite tget_set by auto. now rewrite Nat.eqb_refl. Qed.
Lemma tget_set_neq H T t u : valid H T -> u <> T -> tget (set_type H T t) u = tget H u.
Proof. intros V N. rewrite tget_set by auto. now rewrite (proj2 (Nat.eqb_neq _ _) N). Qed.
Lemma set_type_twice H T t u : set_type (set_type H T t) T u = set_type H T u.
Proof. unfold set_type; cbn. now rewrite set_nth_twice. Qed.
Lemma valid_set H T t u : valid (set_type H T t) u <-> valid H u.
Proof. unfold valid, set_type; cbn. now rewrite length_set_nth. Qed.
Lemma only_changes_set H T t : valid H T -> only_changes H (set_type H T t) T.
Proof.
  intro V. split; [intros; now apply tget_set_neq|]. split; [cbn; apply length_set_nth|]. auto.
Qed.
Lemma tget_valid H T t : tget H T = Some t -> valid H T.
Proof. unfold tget, valid. intro E. apply nth_error_Some. congruence. Qed.

(* effect of one accepted registration on the record *)
Definition apply_reg (t : typerec) (r : reg) : typerec :=
  match r with
  | RTrait n => Type_ (t_id t) (t_parent t) (t_traits t ++ [n]) (t_pointer t) (t_pointee t) (t_fields t) (t_fns t)
  | RFn n ret args code =>
    set_fns t (aset n ((match afind n (t_fns t) with Some os => os | None => [] end) ++ [Fn n ret args code]) (t_fns t))
  | RPointer k p => Type_ (t_id t) (t_parent t) (t_traits t ++ [lit "pointer"]) k (Some p) (t_fields t) (t_fns t)
  end.
Definition loaded (id : str) (rs : list reg) : typerec := fold_left apply_reg rs (newType id).

Lemma loaded_snoc id rs r : loaded id (rs ++ [r]) = apply_reg (loaded id rs) r.
Proof. unfold loaded. now rewrite fold_left_app. Qed.

Lemma afind_aset {V} k k' (v : V) m : afind k (aset k' v m) = if str_eqb k k' then Some v else afind k m.
Proof.
  induction m as [|[k2 v2] m IH]; cbn; [reflexivity|].
  destruct (str_eqb_spec k' k2) as [->|N]; cbn.
  - destruct (str_eqb k k2); reflexivity.
  - rewrite IH. destruct (str_eqb_spec k k2) as [->|]; [|reflexivity].
    destruct (str_eqb_spec k2 k'); [congruence|reflexivity].
Qed.

Lemma fns_of_snoc n rs r : fns_of n (rs ++ [r]) = fns_of n rs ++ fns_of n [r].
Proof. unfold fns_of. now rewrite flat_map_app. Qed.
Lemma pointer_of_snoc rs r : pointer_of (rs ++ [r]) =
  match r with RPointer k p => Some (k, p) | _ => pointer_of rs end.
Proof. unfold pointer_of. rewrite fold_left_app. destruct r; reflexivity. Qed.
Lemma pointer_of_In rs k p : pointer_of rs = Some (k, p) -> In (RPointer k p) rs.
Proof.
  induction rs as [|r rs IH] using rev_ind; [discriminate|].
  rewrite pointer_of_snoc. destruct r; intro E; try (apply in_or_app; left; now apply IH).
  injection E as -> ->. apply in_or_app. right. now left.
Qed.
Lemma pointer_of_none rs k p : pointer_of rs = None -> ~ In (RPointer k p) rs.
Proof.
  induction rs as [|r rs IH] using rev_ind; [auto|].
  rewrite pointer_of_snoc. destruct r; intros E [I|[I|[]]]%in_app_or; try discriminate; now apply IH in I.
Qed.

Lemma loaded_spec id rs : 
  let t := loaded id rs in
  t_id t = id /\ t_parent t = None /\ t_fields t = [] /\ t_traits t = traits_of rs /\
    (forall k p, pointer_of rs = Some (k, p) -> t_pointer t = k /\ t_pointee t = Some p) /\
    (pointer_of rs = None -> t_pointer t = [] /\ t_pointee t = None) /\
    (forall n, afind n (t_fns t) = match fns_of n rs with [] => None | l => Some l end).
Proof.
  cbv zeta. induction rs as [|r rs IH] using rev_ind.
  - cbn. repeat split; auto; discriminate.
  - destruct IH as (I1 & I2 & I3 & I4 & I5 & I6 & I7). rewrite loaded_snoc, pointer_of_snoc.
    unfold traits_of. rewrite flat_map_app. fold (traits_of rs). cbn [flat_map].
    destruct r as [n|m ret args code|k p]; cbn.
    + rewrite I4. repeat (split; [solve [auto]|]). intro n0. rewrite fns_of_snoc. cbn. now rewrite app_nil_r.
    + rewrite I4, !app_nil_r. repeat (split; [solve [auto]|]). intro n0. rewrite afind_aset, !I7, fns_of_snoc.
      replace (fns_of n0 [RFn m ret args code]) with (if str_eqb n0 m then [Fn m ret args code] else []) by (cbn; now rewrite app_nil_r). destruct (str_eqb_spec n0 m) as [->|N].
      * destruct (fns_of m rs); cbn; reflexivity.
      * now rewrite app_nil_r.
    + rewrite I4. split; [auto|]. split; [auto|]. split; [auto|]. split; [auto|].
      split; [intros k0 p0 E; injection E as -> ->; auto|]. split; [discriminate|].
      intro n0. rewrite fns_of_snoc. cbn. now rewrite app_nil_r.
Qed.

Lemma In_fns_of n rs f : In f (fns_of n rs) <->
  exists ret args code, In (RFn n ret args code) rs /\ f = Fn n ret args code.
Proof.
  unfold fns_of. rewrite in_flat_map. split.
  - intros (r & I & J). destruct r as [|m ret args code|]; try destruct J.
    destruct (str_eqb_spec n m) as [->|]; [|destruct J]. destruct J as [<-|[]]. eauto 6.
  - intros (ret & args & code & I & ->). eexists; split; [exact I|]. cbn. rewrite str_eqb_refl. now left.
Qed.
Lemma In_traits_of n rs : In n (traits_of rs) <->
  In (RTrait n) rs \/ (n = lit "pointer" /\ exists k p, In (RPointer k p) rs).
Proof.
  unfold traits_of. rewrite in_flat_map. split.
  - intros (r & I & J). destruct r; try destruct J as [<-|[]]; try destruct J; [now left|right; eauto].
  - intros [I|(-> & k & p & I)]; eexists; (split; [exact I|]); now left.
Qed.

(* ---- pairwise conditions under which a body is accepted ---- *)

(* X can never be an ancestor of T while the body runs *)
Definition alien (H : heap) (T : tptr) (rs : list reg) (X : tptr) : Prop :=
  X <> T /\ X <> h_value H /\ T <> h_value H /\
  forall k p q, points_to H X k p -> ~ In (RPointer k q) rs.

Definition never_exact (H : heap) (T : tptr) (rs : list reg) (a t : argument) : Prop :=
  (a_type a = a_type t /\ ~ same_category a t) \/ (a_type a = T /\ alien H T rs (a_type t)).

Definition separated (H : heap) (T : tptr) (rs : list reg) (old new : list argument) : Prop :=
  length old <> length new \/
  exists i a t, nth_error old i = Some a /\ nth_error new i = Some t /\ never_exact H T rs a t.

Definition before (H : heap) (T : tptr) (rs : list reg) (x y : reg) : Prop :=
  match x, y with
  | RTrait a, RTrait b => a <> b
  | RPointer _ _, RPointer _ _ => False
  | RFn n _ old _, RFn m _ new _ => n = m -> separated H T rs old new
  | _, _ => True
  end.

Record loadable (H : heap) (T : tptr) (id : str) (rs : list reg) : Prop := {
  ld_wf : wf_heap H;
  ld_fresh : fresh H T id;
  ld_sigs : forall n ret args code, In (RFn n ret args code) rs -> arg_valid H ret /\ Forall (arg_valid H) args;
  ld_ptr : forall k p, In (RPointer k p) rs -> may_point H T p;
  ld_traits : ~ In (RTrait (lit "pointer")) rs;
  ld_pairs : ForallOrdPairs (before H T rs) rs }.

Lemma FOP_app_inv {A} (R : A -> A -> Prop) l m : ForallOrdPairs R (l ++ m) ->
  ForallOrdPairs R l /\ ForallOrdPairs R m /\ forall x y, In x l -> In y m -> R x y.
Proof.
  induction l as [|a l IH]; cbn; intro F.
  - split; [constructor|]. split; [auto|]. intros x y [].
  - inversion F as [|? ? F1 F2]; subst. destruct (IH F2) as (A1 & A2 & A3).
    rewrite Forall_forall in F1. split.
    + constructor; auto. apply Forall_forall. intros y Iy. apply F1, in_or_app. now left.
    + split; auto. intros x y [<-|Ix] Iy; auto. apply F1, in_or_app. now right.
Qed.
Lemma FOP_incl {A} (R R' : A -> A -> Prop) l : (forall x y, R x y -> R' x y) ->
  ForallOrdPairs R l -> ForallOrdPairs R' l.
Proof.
  intros I F. induction F; constructor; auto. eapply Forall_impl; [|eassumption]. auto.
Qed.

Lemma link_set H T t a p : valid H T -> link (set_type H T t) a p ->
  (a <> T /\ link H a p) \/ (a = T /\ (t_parent t = Some p \/ t_pointee t = Some p)).
Proof.
  intros V (u & E & L). rewrite tget_set in E by auto. destruct (Nat.eqb_spec a T) as [->|N].
  - injection E as <-. auto.
  - left. split; auto. exists u. auto.
Qed.

Lemma wf_loaded H T id rs : wf_heap H -> fresh H T id -> (forall k p, In (RPointer k p) rs -> may_point H T p) ->
  ~ In (RTrait (lit "pointer")) rs -> wf_heap (set_type H T (loaded id rs)).
Proof.
  intros W F P NT. pose proof (tget_valid _ _ _ F) as V.
  destruct (loaded_spec id rs) as (I1 & I2 & I3 & I4 & I5 & I6 & I7).
  set (t := loaded id rs) in *. constructor.
  - intros a p L. rewrite valid_set. apply link_set in L as [(N & L)|(-> & [E|E])]; auto.
    + eapply wf_links; eauto.
    + congruence.
    + destruct (pointer_of rs) as [[k q]|] eqn:Ep.
      * destruct (I5 k q eq_refl) as [_ E']. apply pointer_of_In, P in Ep. destruct Ep as [Vp _]. congruence.
      * destruct (I6 eq_refl). congruence.
  - intros a (u & E & Hu). rewrite tget_set in E by auto. destruct (Nat.eqb_spec a T) as [->|N].
    + injection E as <-. rewrite I4, In_traits_of in Hu. destruct Hu as [Hu|(_ & k & p & Hu)]; [contradiction|].
      destruct (pointer_of rs) as [[k' q]|] eqn:Ep; [|exfalso; eapply pointer_of_none; eauto].
      destruct (I5 k' q eq_refl) as [E1 E2]. exists k', q, t. rewrite tget_set_eq by auto.
      repeat split; auto. rewrite I4. apply In_traits_of. right. split; auto. eauto.
    + destruct (wf_ptr H W a) as (k & p & u' & E' & Q); [exists u; auto|].
      exists k, p, u'. rewrite tget_set_neq by auto. auto.
  - destruct (pointer_of rs) as [[k q]|] eqn:Ep.
    + destruct (I5 k q eq_refl) as [E1 E2]. pose proof (pointer_of_In _ _ _ Ep) as Ip. apply P in Ip as [Vp (rk & R1 & R2)].
      exists rk. intros a p L. apply link_set in L as [(N & L)|(-> & [E|E])]; auto; congruence.
    + destruct (I6 eq_refl) as [E1 E2]. destruct (wf_acyclic H W) as [rk R]. exists rk. intros a p L.
      apply link_set in L as [(N & L)|(-> & [E|E])]; auto; congruence.
  - rewrite valid_set. apply W.
  - rewrite valid_set. apply W.
Qed.

Lemma never_exact_sound H T id rs pre post a t m : wf_heap H -> fresh H T id -> rs = pre ++ post ->
  (forall k p, In (RPointer k p) rs -> may_point H T p) -> ~ In (RTrait (lit "pointer")) rs ->
  arg_valid H a -> arg_valid H t -> never_exact H T rs a t ->
  isConvertibleTo (set_type H T (loaded id pre)) a t = Ok m -> m <> MExact.
Proof.
  intros W F Ers P NT Va Vt NE C ->. pose proof (tget_valid _ _ _ F) as V.
  assert (W' : wf_heap (set_type H T (loaded id pre))).
  { apply wf_loaded; auto.
    - intros k p I. apply (P k p). subst rs. apply in_or_app; auto.
    - intro I. apply NT. subst rs. apply in_or_app; auto. }
  apply isConvertibleTo_iff_Grade in C; auto; try (apply valid_set; assumption).
  destruct NE as [(Et & NS)|(Ea & N1 & N2 & N3 & N4)].
  - inversion C; subst.
    + apply NS. left. auto.
    + match goal with X : one_is_value _ _ _ |- _ => destruct X as [[]|[]]; congruence end.
    + contradiction.
  - inversion C; subst.
    + congruence.
    + match goal with X : one_is_value _ _ _ |- _ => destruct X as [[]|[]]; cbn in *; congruence end.
    + match goal with X : Subtype _ _ _ |- _ => rename X into S0 end.
      destruct (loaded_spec id pre) as (I1 & I2 & I3 & I4 & I5 & I6 & I7).
      inversion S0 as [x Ex|x p y Pp|x y k pa pb Pa Pb]; subst.
      * congruence.
      * destruct Pp as (u & Eu & Pu). rewrite tget_set_eq in Eu by auto. congruence.
      * destruct Pa as (u & Eu & Tu & Ku & Qu). rewrite tget_set_eq in Eu by auto. injection Eu as <-.
        rewrite I4, In_traits_of in Tu. destruct Tu as [Tu|(_ & k' & p' & Tu)].
        { apply NT, in_or_app. auto. }
        destruct (pointer_of pre) as [[k2 q2]|] eqn:Ep; [|eapply pointer_of_none; eauto].
        destruct (I5 k2 q2 eq_refl) as [E1 E2]. apply pointer_of_In in Ep.
        destruct Pb as (u & Eu & Tu2 & Ku2 & Qu2). rewrite tget_set_neq in Eu by auto.
        apply (N4 k2 pb q2); [|apply in_or_app; auto].
        exists u. repeat split; auto. congruence.
Qed.

Lemma test_fn_not_exact H f o m : test_fn H f o = Ok m ->
  (length (f_args o) <> length (f_args f) \/
   exists i a t, nth_error (f_args o) i = Some a /\ nth_error (f_args f) i = Some t /\
     forall g, isConvertibleTo H a t = Ok g -> g <> MExact) ->
  m <> MExact.
Proof.
  unfold test_fn. destruct (testReturn H (f_ret o) (f_ret f)) as [r| | | |]; try discriminate. cbn.
  destruct (testArguments H (f_args o) (f_args f)) as [g| | | |] eqn:Et; try discriminate. cbn.
  intros E D ->. injection E as E.
  assert (g = MExact) as -> by (destruct r, g; cbn in E; congruence). clear E r.
  unfold testArguments in Et. destruct (Nat.eqb_spec (length (f_args o)) (length (f_args f))) as [L|L]; cbn in Et; [|discriminate].
  destruct D as [D|(i & a & t & E1 & E2 & D)]; [contradiction|].
  revert Et E1 E2. generalize MExact at 1 as g0. revert i. clear L.
  generalize (f_args o), (f_args f). intros vs. induction vs as [|v vs IH]; intros [|u us] [|i] g0; cbn; try discriminate.
  - intros Et E1 E2. injection E1 as ->. injection E2 as ->.
    destruct (isConvertibleTo H a t) as [c| | | |] eqn:Ec; try discriminate. cbn in Et. specialize (D c eq_refl).
    assert (X : combine g0 c = MNone \/ combine g0 c = MPartial) by (destruct g0, c; cbn; auto; contradiction).
    destruct X as [X|X]; rewrite X in Et; cbn in Et; [discriminate|].
    revert Et. clear. revert us. induction vs as [|v vs IH]; intros [|u us]; cbn; try discriminate.
    destruct (isConvertibleTo H v u) as [c| | | |]; cbn; try discriminate. destruct c; cbn; try discriminate; apply IH.
  - intros Et E1 E2. destruct (isConvertibleTo H v u) as [c| | | |] eqn:Ec; try discriminate. cbn in Et.
    destruct (grade_eqb (combine g0 c) MNone) eqn:Eg; [discriminate|].
    eapply IH; eauto.
Qed.

Lemma arg_valid_set H T t a : arg_valid (set_type H T t) a <-> arg_valid H a.
Proof. apply valid_set. Qed.
Lemma fn_valid_set H T t f : fn_valid H f -> fn_valid (set_type H T t) f.
Proof.
  intros [A B]. split; [now apply arg_valid_set|]. eapply Forall_impl; [|exact B]. intros a. apply arg_valid_set.
Qed.

Lemma reg1_ok H T id rs pre r post : loadable H T id rs -> rs = pre ++ r :: post ->
  reg1 (set_type H T (loaded id pre)) T r = Ok (set_type H T (loaded id (pre ++ [r]))).
Proof.
  intros [W F SG P NT FP] Ers. pose proof (tget_valid _ _ _ F) as V.
  assert (W' : wf_heap (set_type H T (loaded id pre))).
  { apply wf_loaded; auto.
    - intros k p I. apply (P k p). subst rs. apply in_or_app; auto.
    - intro I. apply NT. subst rs. apply in_or_app; auto. }
  assert (B : forall x, In x pre -> before H T rs x r).
  { intros x I. rewrite Ers in FP at 2. apply FOP_app_inv in FP as (_ & _ & FP). apply FP; auto. now left. }
  destruct (loaded_spec id pre) as (I1 & I2 & I3 & I4 & I5 & I6 & I7).
  unfold reg1. rewrite tget_set_eq by auto. rewrite loaded_snoc. destruct r as [n|n ret args code|k p]; cbn [apply_reg].
  - unfold addTrait. destruct (smem n (t_traits (loaded id pre))) eqn:Em.
    + exfalso. rewrite smem_In, I4, In_traits_of in Em. destruct Em as [Em|(-> & k & p & Em)].
      * apply B in Em. cbn in Em. congruence.
      * apply NT. subst rs. apply in_or_app. right. now left.
    + cbn. now rewrite set_type_twice.
  - unfold addFunction. rewrite I3. cbn [afind].
    rewrite c07_accepted.
    + cbn. now rewrite set_type_twice.
    + intros o Io. rewrite I7 in Io.
      assert (Io' : In o (fns_of n pre)) by (destruct (fns_of n pre); auto). clear Io.
      apply In_fns_of in Io' as (ret' & args' & code' & Io & ->).
      assert (FV1 : fn_valid (set_type H T (loaded id pre)) (Fn n ret args code)).
      { apply fn_valid_set. destruct (SG n ret args code) as [A1 A2]; [subst rs; apply in_or_app; right; now left|]. split; auto. }
      assert (FVo : fn_valid (set_type H T (loaded id pre)) (Fn n ret' args' code')).
      { apply fn_valid_set. destruct (SG n ret' args' code') as [A1 A2]; [subst rs; apply in_or_app; auto|]. split; auto. }
      destruct (test_sig_total _ (Fn n ret args code) ret' args' W' FV1 (proj1 FVo) (proj2 FVo)) as [m Em].
      exists m. split; [exact Em|].
      apply (test_fn_not_exact (set_type H T (loaded id pre)) (Fn n ret args code) (Fn n ret' args' code') m Em).
      specialize (B _ Io). cbn in B. destruct (B eq_refl) as [D|(i & a & t & E1 & E2 & D)]; [now left|right].
      exists i, a, t. split; [exact E1|]. split; [exact E2|]. intros g Eg.
      apply (never_exact_sound H T id rs pre (RFn n ret args code :: post) a t g); auto.
      * apply (arg_valid_set H T (loaded id pre)). destruct FVo as [_ X]. eapply Forall_forall; [exact X|]. eapply nth_error_In; eauto.
      * apply (arg_valid_set H T (loaded id pre)). destruct FV1 as [_ X]. eapply Forall_forall; [exact X|]. eapply nth_error_In; eauto.
  - unfold setPointer, isPointer, is_trait. destruct (smem (lit "pointer") (t_traits (loaded id pre))) eqn:Em.
    + exfalso. rewrite smem_In, I4, In_traits_of in Em. destruct Em as [Em|(_ & k' & p' & Em)].
      * apply NT. subst rs. apply in_or_app; auto.
      * apply B in Em. exact Em.
    + unfold addTrait. rewrite Em. cbn. now rewrite set_type_twice.
Qed.

Lemma set_type_same H T t : tget H T = Some t -> set_type H T t = H.
Proof.
  unfold tget, set_type. destruct H as [l v w]; cbn. intro E. f_equal.
  unfold set_nth. revert l E. induction T as [|T IH]; intros [|x l] E; cbn in *; try discriminate.
  - congruence.
  - f_equal. now apply IH.
Qed.

Lemma register_ok H T id rs : loadable H T id rs ->
  register H T rs = Ok (set_type H T (loaded id rs)).
Proof.
  intro L.
  assert (G : forall post pre, rs = pre ++ post ->
    register (set_type H T (loaded id pre)) T post = Ok (set_type H T (loaded id rs))).
  { induction post as [|r post IH]; intros pre E.
    - rewrite app_nil_r in E. now subst.
    - cbn [register]. rewrite (reg1_ok H T id rs pre r post L E). cbn. apply IH.
      rewrite E, <- app_assoc. reflexivity. }
  specialize (G rs [] eq_refl). rewrite set_type_same in G; auto. apply (ld_fresh _ _ _ _ L).
Qed.

Lemma register_effect H T id rs : loadable H T id rs -> exists H',
  register H T rs = Ok H' /\ wf_heap H' /\ only_changes H H' T /\ carries H' T id rs.
Proof.
  intro L. exists (set_type H T (loaded id rs)). destruct L as [W F SG P NT FP] eqn:EL.
  pose proof (tget_valid _ _ _ F) as V.
  split; [now apply register_ok|]. split; [now apply wf_loaded|]. split; [now apply only_changes_set|].
  exists (loaded id rs). split; [now apply tget_set_eq|]. apply loaded_spec.
Qed.

(* sub-bodies: what is accepted with all the optional members is accepted with fewer *)
Inductive sub_body : list reg -> list reg -> Prop :=
| sb_nil : sub_body [] []
| sb_keep r l m : sub_body l m -> sub_body (r :: l) (r :: m)
| sb_drop r l m : sub_body l m -> sub_body l (r :: m).
Lemma sub_body_refl l : sub_body l l.
Proof. induction l; constructor; auto. Qed.
Lemma sub_body_app a b c d : sub_body a b -> sub_body c d -> sub_body (a ++ c) (b ++ d).
Proof. induction 1; cbn; intros; try constructor; auto. Qed.
Lemma sub_body_nil l : sub_body [] l.
Proof. induction l; constructor; auto. Qed.
Lemma sub_body_when b r : sub_body (when b r) [r].
Proof. destruct b; cbn; repeat constructor. Qed.
Lemma sub_body_In l m r : sub_body l m -> In r l -> In r m.
Proof. induction 1; cbn; intuition. Qed.
Lemma sub_body_FOP R l m : sub_body l m -> ForallOrdPairs R m -> ForallOrdPairs R l.
Proof.
  induction 1 as [|r l m Hs IH|r l m Hs IH]; intro F; auto; inversion F as [|? ? F1 F2]; subst; auto.
  constructor; auto. rewrite Forall_forall in *. intros x Ix. apply F1. eapply sub_body_In; eauto.
Qed.
Lemma before_sub H T l m x y : (forall r, In r l -> In r m) -> before H T m x y -> before H T l x y.
Proof.
  intros I. destruct x, y; cbn; auto. intros B E. specialize (B E).
  destruct B as [B|(i & a & t & E1 & E2 & [B|(B1 & B2 & B3 & B4 & B5)])]; [now left|right..]; exists i, a, t; repeat (split; [assumption|]).
  - now left.
  - right. repeat (split; [assumption|]). intros k p q Hp Iq. apply (B5 k p q Hp). auto.
Qed.
Lemma loadable_sub H T id l m : sub_body l m -> loadable H T id m -> loadable H T id l.
Proof.
  intros S0 [W F SG P NT FP]. pose proof (fun r => sub_body_In _ _ r S0) as I. constructor; auto.
  - intros. eapply SG. eauto.
  - intros. eapply P. eauto.
  - eapply sub_body_FOP; [exact S0|]. eapply FOP_incl; [|exact FP]. intros x y. now apply before_sub.
Qed.

Definition all_caps := Caps true true true true true.
Lemma plumbing_sub id T k b : sub_body (plumbing id T k b) (plumbing id T all_caps b).
Proof.
  unfold plumbing. constructor. unfold defaultCons, copyCons, opCopyAssign, moveCons, opMoveAssign. cbn [all_caps k_def k_copy k_move k_copy_assign k_move_assign andb].
  repeat apply sub_body_app; apply sub_body_when.
Qed.
