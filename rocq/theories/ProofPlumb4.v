(* ProofPlumb4.v - reflectOperators(). *)
From Coq Require String.
Import String.StringSyntax.
From Coq Require Import Permutation Relations.
From Verif Require Import Base ModelCore SpecCore ProofCore ProofMatch ProofCore2 ModelPlumb SpecPlumb ProofPlumb ModelValue SpecValue ProofValue ProofPlumb2 ProofPlumb3.
Local Open Scope outcome_scope.

Lemma register_app H T l m : register H T (l ++ m) = do H' <- register H T l; register H' T m.
Proof.
  revert H; induction l as [|r l IH]; intro H; cbn; auto.
  destruct (reg1 H T r); cbn; auto.
Qed.

Lemma reflectOps_names ops l n ret args code : In (RFn n ret args code) (flat_map (reflectOp ops) l) ->
  In n l /\ ops n = Some (ret, args, code).
Proof.
  intro I. apply in_flat_map in I as (m & Im & I). unfold reflectOp in I.
  destruct (ops m) as [[[r0 a0] c0]|] eqn:E; [|destruct I].
  destruct I as [I|[]]. injection I as -> -> -> ->. auto.
Qed.
Lemma reflectOps_fn ops l r : In r (flat_map (reflectOp ops) l) -> exists n ret args code, r = RFn n ret args code.
Proof.
  intro I. apply in_flat_map in I as (m & Im & I). unfold reflectOp in I.
  destruct (ops m) as [[[r0 a0] c0]|] eqn:E; [|destruct I]. destruct I as [<-|[]]. eauto.
Qed.

Lemma before_names H T rs x y : (forall n r a c r' a' c', x = RFn n r a c -> y = RFn n r' a' c' -> False) ->
  (exists n r a c, x = RFn n r a c) -> (exists n r a c, y = RFn n r a c) -> before H T rs x y.
Proof.
  intros D (n & r & a & c & ->) (n' & r' & a' & c' & ->). cbn. intros ->. exfalso. eapply D; eauto.
Qed.

Lemma reflectOps_pairs H T rs ops l : NoDup l -> ForallOrdPairs (before H T rs) (flat_map (reflectOp ops) l).
Proof.
  induction l as [|n l IH]; cbn; intro N; [constructor|]. inversion N as [|? ? N1 N2]; subst.
  apply FOP_app_intro; auto.
  - unfold reflectOp. destruct (ops n) as [[[r0 a0] c0]|]; repeat constructor.
  - intros x y Ix Iy. apply before_names.
    + intros m r a c r' a' c' -> ->.
      assert (Im : In (RFn m r a c) (flat_map (reflectOp ops) [n])) by (cbn; rewrite app_nil_r; auto).
      apply reflectOps_names in Im as [[->|[]] _]. apply reflectOps_names in Iy as [Iy _]. contradiction.
    + apply (reflectOps_fn ops [n]). cbn. now rewrite app_nil_r.
    + eapply reflectOps_fn; eauto.
Qed.

Definition lateNames : list str := opArithmeticNames ++ opLogicalNames ++ opComparaisonNames ++ [lit "operator()"; lit "operator[]"].
Definition opers_once (T I : tptr) ops o b : list reg :=
  flat_map (reflectOp ops) opAssignNames ++ opIncDec T I o b ++ flat_map (reflectOp ops) lateNames.
Lemma operators_split T I ops o b : operators T I ops o b = opers_once T I ops o b ++ reflectOp ops (lit "operator*").
Proof.
  unfold operators, opers_once, lateNames, opOtherNames. rewrite !flat_map_app, <- !app_assoc.
  repeat f_equal. cbn [flat_map]. now rewrite app_nil_r, <- !app_assoc.
Qed.

Ltac isop := eexists; cbn; reflexivity.
Lemma names_assign : Forall is_operator opAssignNames.
Proof. repeat constructor; eexists; cbn; reflexivity. Qed.
Lemma names_late : Forall is_operator lateNames.
Proof. repeat constructor; eexists; cbn; reflexivity. Qed.
Lemma nodup_assign : NoDup opAssignNames.
Proof. repeat constructor; cbn; intuition discriminate. Qed.
Lemma nodup_late : NoDup lateNames.
Proof. repeat constructor; cbn; intuition discriminate. Qed.
Lemma assign_late n : In n opAssignNames -> In n lateNames -> False.
Proof. cbn -[lit]. intuition (subst; discriminate). Qed.

Lemma incdec_names T I o b r : In r (opIncDec T I o b) -> exists n ret args code, r = RFn n ret args code /\
  (n = lit "operator++" \/ n = lit "operator--") /\
  (ret = Arg T LValue false \/ ret = Arg T Copy false) /\ (args = [Arg T LValue false] \/ args = [Arg T LValue false; Arg I Copy false]).
Proof.
  unfold opIncDec, when. intro J.
  destruct o as [[] [] [] []]; cbn -[lit] in J; repeat (destruct J as [<-|J]; [do 4 eexists; split; [reflexivity|]; auto 8|]); destruct J.
Qed.

Lemma incdec_pairs H T rs I o b : ForallOrdPairs (before H T rs) (opIncDec T I o b).
Proof.
  apply (sub_body_FOP _ _ (opIncDec T I (IncDec true true true true) b)).
  - unfold opIncDec. repeat apply sub_body_app; apply sub_body_when.
  - unfold opIncDec, when. cbn [has_inc_pre has_dec_pre has_inc_post has_dec_post app]. 
    repeat (apply FOP_cons; [repeat apply Forall_cons; try apply Forall_nil; try (intro X; discriminate X); intros _; left; cbn; discriminate|]).
    apply FOP_nil.
Qed.

Lemma opers_names T I ops o b r : In r (opers_once T I ops o b) -> exists n ret args code, r = RFn n ret args code /\
  is_operator n /\ n <> lit "operator=" /\ (forall id, n <> converterName id).
Proof.
  unfold opers_once. intros [J|[J|J]%in_app_or]%in_app_or.
  - destruct (reflectOps_fn _ _ _ J) as (n & ret & args & code & ->). exists n, ret, args, code.
    apply reflectOps_names in J as [J _]. split; auto. split.
    + apply (proj1 (Forall_forall _ _) names_assign); auto.
    + cbn -[lit] in J. split; [intros ->|intros id ->]; intuition discriminate.
  - destruct (incdec_names _ _ _ _ _ J) as (n & ret & args & code & -> & Nn & _). exists n, ret, args, code. split; auto.
    destruct Nn as [->| ->]; (split; [eexists; cbn; reflexivity|split; [discriminate|intro; discriminate]]).
  - destruct (reflectOps_fn _ _ _ J) as (n & ret & args & code & ->). exists n, ret, args, code.
    apply reflectOps_names in J as [J _]. split; auto. split.
    + apply (proj1 (Forall_forall _ _) names_late); auto.
    + cbn -[lit] in J. split; [intros ->|intros id ->]; intuition discriminate.
Qed.

Lemma opers_extension H T I id ops o b rs : ~ is_operator id -> valid H T -> valid H I -> ops_valid H ops ->
  extension_ok H T id rs (opers_once T I ops o b) /\
  (forall ret args code, ~ In (RFn id ret args code) (opers_once T I ops o b)).
Proof.
  intros NI VT VI OV.
  assert (NC : forall ret args code, ~ In (RFn id ret args code) (opers_once T I ops o b)).
  { intros ret args code J. apply opers_names in J as (n & r0 & a0 & c0 & E & J & _). injection E as -> -> -> ->. contradiction. }
  split; [|exact NC]. constructor.
  - intros n ret args code J. unfold opers_once in J. apply in_app_or in J as [J|J]; [|apply in_app_or in J as [J|J]].
    + apply reflectOps_names in J as [_ J]. eapply OV; eauto.
    + destruct (incdec_names _ _ _ _ _ J) as (n' & ret' & args' & code' & E & _ & Rr & Ra).
      injection E as -> -> -> ->. split; [destruct Rr as [->| ->]; exact VT|].
      destruct Ra as [->| ->]; repeat constructor; auto.
    + apply reflectOps_names in J as [_ J]. eapply OV; eauto.
  - intros k p J. apply opers_names in J as (? & ? & ? & ? & E & _). discriminate.
  - intros n J. apply opers_names in J as (? & ? & ? & ? & E & _). discriminate.
  - intros ret args code J. apply opers_names in J as (? & ? & ? & ? & E & _ & N & _). injection E as <- _ _ _. contradiction.
  - intros ret args code J. apply opers_names in J as (? & ? & ? & ? & E & _ & _ & N). injection E as <- _ _ _. eapply N; eauto.
  - intros ret args code J. exfalso. eapply NC; eauto.
  - unfold opers_once. apply FOP_app_intro; [apply reflectOps_pairs, nodup_assign| |].
    + apply FOP_app_intro; [apply incdec_pairs|apply reflectOps_pairs, nodup_late|].
      intros x y Ix Iy. destruct (incdec_names _ _ _ _ _ Ix) as (n & r & a & c & -> & Nn & _).
      apply before_names; [|eauto|eapply reflectOps_fn; eauto].
      intros m r1 a1 c1 r2 a2 c2 E ->. injection E as -> -> -> ->. apply reflectOps_names in Iy as [Iy _]. cbn -[lit] in Iy.
      destruct Nn as [->| ->]; intuition discriminate.
    + intros x y Ix Iy. apply before_names; [|eapply reflectOps_fn; eauto|].
      * intros n r1 a1 c1 r2 a2 c2 -> ->. apply reflectOps_names in Ix as [Ix _].
        apply in_app_or in Iy as [Iy|Iy].
        { destruct (incdec_names _ _ _ _ _ Iy) as (m & ? & ? & ? & E & Nn & _). injection E as -> -> -> ->. cbn -[lit] in Ix.
          destruct Nn as [->| ->]; intuition discriminate. }
        { apply reflectOps_names in Iy as [Iy _]. eapply assign_late; eauto. }
      * apply in_app_or in Iy as [Iy|Iy].
        { destruct (incdec_names _ _ _ _ _ Iy) as (m & ? & ? & ? & E & _). eauto. }
        { eapply reflectOps_fn; eauto. }
Qed.

Lemma fns_of_In_op T I id k ops o b ret args code : ops (lit "operator*") = Some (ret, args, code) ->
  In (Fn (lit "operator*") ret args code) (fns_of (lit "operator*") (plumbing id T k b ++ opers_once T I ops o (b + 5))).
Proof.
  intro E. apply In_fns_of. exists ret, args, code. split; auto. apply in_or_app. right.
  unfold opers_once. apply in_or_app. right. apply in_or_app. right. apply in_flat_map.
  exists (lit "operator*"). split; [cbn -[lit]; auto|]. unfold reflectOp. rewrite E. now left.
Qed.

Lemma double_star H T I id k ops o b ret args code : wf_heap H -> fresh H T id -> ~ is_operator id -> valid H I ->
  ops_valid H ops -> ops (lit "operator*") = Some (ret, args, code) ->
  register H T (plumbing id T k b ++ operators T I ops o (b + 5)) = Abort.
Proof.
  intros W F NI VI OV Eo. pose proof (tget_valid _ _ _ F) as V.
  assert (NO : id <> lit "operator=") by (intros ->; apply NI; eexists; cbn; reflexivity).
  rewrite operators_split, app_assoc, register_app.
  destruct (opers_extension H T I id ops o (b + 5) (plumbing id T all_caps b ++ opers_once T I ops o (b + 5)) NI V VI OV) as [X _].
  destruct (register_effect H T id _ (extension_loadable H T id k b _ _ eq_refl W F NO X)) as (H' & -> & W' & OC & C).
  cbn [bind]. unfold reflectOp. rewrite Eo. cbn [register].
  destruct C as (t & Et & _ & _ & Efl & _ & _ & _ & Ef).
  unfold reg1. rewrite Et. unfold addFunction. rewrite Efl, Ef. cbn [afind].
  pose proof (fns_of_In_op T I id k ops o b _ _ _ Eo) as J.
  destruct (fns_of (lit "operator*") _) as [|f0 l] eqn:El; [destruct J|].
  assert (VH : forall a, arg_valid H a -> arg_valid H' a).
  { intros a. unfold arg_valid, valid. destruct OC as (_ & L & _). now rewrite L. }
  destruct (OV _ _ _ _ Eo) as [Vr Va].
  rewrite (c07_rejected H' (f0 :: l) (Fn (lit "operator*") ret args code) (Fn (lit "operator*") ret args code)); auto.
  - apply Forall_forall. intros f Hf. rewrite <- El in Hf. apply In_fns_of in Hf as (r & a & c & Hf & ->).
    apply in_app_or in Hf as [Hf|Hf].
    + destruct (plumbing_sigs H T id k b _ _ _ _ V Hf) as [X1 X2]. split; cbn; auto. eapply Forall_impl; [|exact X2]; auto.
    + destruct (ex_sigs _ _ _ _ _ X _ _ _ _ Hf) as [X1 X2]. split; cbn; auto. eapply Forall_impl; [|exact X2]; auto.
  - split; cbn; auto. eapply Forall_impl; [|exact Va]; auto.
  - now apply test_fn_same_sig.
Qed.

Lemma loads_of H T id k b rs extra : loadable H T id rs -> id <> lit "operator=" ->
  T <> h_value H ->
  (forall H', wf_heap H' -> only_changes H H' T -> carries H' T id rs -> plumbed_body H' T id k b rs extra) ->
  loads H T id k rs.
Proof.
  intros L NO NVal PB. destruct (register_effect _ _ _ _ L) as (H' & E & W & OC & C). exists H'.
  pose proof OC as (_ & _ & Ev & El).
  split; auto. split; auto. split; auto. split; auto.
  refine (plumbing_copiable H' T id k b rs extra W (PB H' W OC C) NO _); congruence.
Qed.

Lemma loads_ext H T id k b ext rs : rs = plumbing id T all_caps b ++ ext -> wf_heap H -> fresh H T id ->
  id <> lit "operator=" -> T <> h_value H ->
  extension_ok H T id rs ext /\ (forall ret args code, ~ In (RFn id ret args code) ext) ->
  loads H T id k (plumbing id T k b ++ ext).
Proof.
  intros Ers W F NO NVal [X NC]. apply (loads_of H T id k b _ []); auto.
  - eapply extension_loadable; eauto.
  - intros H' _ _ C. eapply extension_plumbed; eauto.
Qed.

Lemma plumbing_body H' T id k b : id <> lit "operator=" -> carries H' T id (plumbing id T k b) ->
  plumbed_body H' T id k b (plumbing id T k b) [].
Proof.
  intros NO C. constructor; auto.
  - now rewrite app_nil_r.
  - intros ret args code J. apply plumbing_names in J as [J|J].
    + now apply (converterName_neq_id id).
    + now apply (converterName_neq_assign id).
  - constructor.
Qed.

Definition str_dec : forall a c : str, {a = c} + {a <> c} := list_eq_dec N.eq_dec.
Lemma str_eqb_false a c : a <> c -> str_eqb a c = false.
Proof. intro N. destruct (str_eqb a c) eqn:E; auto. apply str_eqb_eq in E. contradiction. Qed.
Lemma fns_of_reflectOps ops l n : NoDup l -> fns_of n (flat_map (reflectOp ops) l) =
  match ops n with Some (ret, args, code) => if in_dec str_dec n l then [Fn n ret args code] else [] | None => [] end.
Proof.
  induction l as [|m l IH]; intro N; cbn [flat_map].
  - cbn. destruct (ops n) as [[[? ?] ?]|]; auto.
  - inversion N as [|? ? N1 N2]; subst. rewrite fns_of_app, IH by auto.
    unfold reflectOp at 1. destruct (str_dec n m) as [<-|D].
    + destruct (ops n) as [[[r a] c]|]; auto. cbn. rewrite str_eqb_refl. cbn.
      destruct (in_dec str_dec n l); [contradiction|]. destruct (str_dec n n); [reflexivity|contradiction].
    + assert (X : fns_of n (match ops m with Some (ret, args, code) => [RFn m ret args code] | None => [] end) = []).
      { destruct (ops m) as [[[r a] c]|]; auto. cbn. now rewrite str_eqb_false. }
      rewrite X. cbn [app]. destruct (ops n) as [[[r a] c]|]; auto.
      destruct (in_dec str_dec n l) as [i|i]; destruct (in_dec str_dec n (m :: l)) as [j|j]; auto.
      * exfalso. apply j. now right.
      * destruct j as [j|j]; [congruence|contradiction].
Qed.
Lemma fns_of_plumbing_op id T k b n : n <> id -> n <> lit "operator=" -> fns_of n (plumbing id T k b) = [].
Proof.
  intros N1 N2. apply fns_of_none. intros ret args code J. apply plumbing_names in J as [J|J]; contradiction.
Qed.
Lemma fns_of_incdec n T I o b : n <> lit "operator++" -> n <> lit "operator--" -> fns_of n (opIncDec T I o b) = [].
Proof.
  intros N1 N2. apply fns_of_none. intros ret args code J. apply incdec_names in J as (m & ? & ? & ? & E & D & _).
  injection E as <- _ _ _. destruct D; contradiction.
Qed.
Lemma op_names_ok n : In n (opAssignNames ++ lateNames) ->
  n <> lit "operator=" /\ n <> lit "operator++" /\ n <> lit "operator--".
Proof. cbn -[lit]. intuition (subst; discriminate). Qed.
Lemma opers_lookup T I id k ops o b op ret args code : ~ is_operator id -> ops (lit "operator*") = None ->
  In op (opAssignNames ++ opArithmeticNames ++ opLogicalNames ++ opComparaisonNames ++ opOtherNames) ->
  ops op = Some (ret, args, code) ->
  fns_of op (plumbing id T k b ++ operators T I ops o (b + 5)) = [Fn op ret args code].
Proof.
  intros NI Ns Io Eo. assert (Nst : op <> lit "operator*") by congruence.
  assert (Io' : In op (opAssignNames ++ lateNames)).
  { unfold lateNames. unfold opOtherNames in Io. rewrite !in_app_iff in *. cbn [In] in *.
    intuition congruence. }
  destruct (op_names_ok op Io') as (M1 & M2 & M3).
  assert (N1 : op <> id).
  { intros ->. apply NI. apply in_app_or in Io' as [J|J].
    - apply (proj1 (Forall_forall _ _) names_assign _ J).
    - apply (proj1 (Forall_forall _ _) names_late _ J). }
  rewrite operators_split. unfold reflectOp at 1. rewrite Ns, app_nil_r. unfold opers_once.
  rewrite !fns_of_app, fns_of_plumbing_op, fns_of_incdec by auto. cbn [app].
  rewrite !fns_of_reflectOps by (apply nodup_assign || apply nodup_late). rewrite Eo.
  destruct (in_dec str_dec op opAssignNames) as [i|i]; destruct (in_dec str_dec op lateNames) as [j|j]; auto.
  - exfalso. eapply assign_late; eauto.
  - apply in_app_or in Io' as [J|J]; contradiction.
Qed.
Lemma opers_incdec T I id k ops o b : ~ is_operator id -> ops (lit "operator*") = None ->
  fns_of (lit "operator++") (plumbing id T k b ++ operators T I ops o (b + 5))
    = fns_of (lit "operator++") (opIncDec T I o (b + 5)).
Proof.
  intros NI Ns. assert (N1 : lit "operator++" <> id) by (intros <-; apply NI; eexists; cbn; reflexivity).
  rewrite operators_split. unfold reflectOp at 1. rewrite Ns, app_nil_r. unfold opers_once.
  rewrite !fns_of_app, fns_of_plumbing_op by (auto; discriminate). cbn [app].
  rewrite !fns_of_reflectOps by (apply nodup_assign || apply nodup_late).
  assert (X : ~ In (lit "operator++") opAssignNames) by (cbn -[lit]; intuition discriminate).
  assert (Y : ~ In (lit "operator++") lateNames) by (cbn -[lit]; intuition discriminate).
  destruct (ops (lit "operator++")) as [[[? ?] ?]|]; [|now rewrite app_nil_r].
  destruct (in_dec _ _ opAssignNames); [contradiction|]. destruct (in_dec _ _ lateNames); [contradiction|]. now rewrite app_nil_r.
Qed.
Lemma opers_decdec T I id k ops o b : ~ is_operator id -> ops (lit "operator*") = None ->
  fns_of (lit "operator--") (plumbing id T k b ++ operators T I ops o (b + 5))
    = fns_of (lit "operator--") (opIncDec T I o (b + 5)).
Proof.
  intros NI Ns. assert (N1 : lit "operator--" <> id) by (intros <-; apply NI; eexists; cbn; reflexivity).
  rewrite operators_split. unfold reflectOp at 1. rewrite Ns, app_nil_r. unfold opers_once.
  rewrite !fns_of_app, fns_of_plumbing_op by (auto; discriminate). cbn [app].
  rewrite !fns_of_reflectOps by (apply nodup_assign || apply nodup_late).
  assert (X : ~ In (lit "operator--") opAssignNames) by (cbn -[lit]; intuition discriminate).
  assert (Y : ~ In (lit "operator--") lateNames) by (cbn -[lit]; intuition discriminate).
  destruct (ops (lit "operator--")) as [[[? ?] ?]|]; [|now rewrite app_nil_r].
  destruct (in_dec _ _ opAssignNames); [contradiction|]. destruct (in_dec _ _ lateNames); [contradiction|]. now rewrite app_nil_r.
Qed.
Lemma operator_names_known op : In op operator_names ->
  In op (opAssignNames ++ opArithmeticNames ++ opLogicalNames ++ opComparaisonNames ++ opOtherNames).
Proof.
  intro J. assert (F : forallb (fun n => smem n (opAssignNames ++ opArithmeticNames ++ opLogicalNames ++ opComparaisonNames ++ opOtherNames)) operator_names = true)
    by (vm_compute; reflexivity).
  rewrite forallb_forall in F. apply smem_In. now apply F.
Qed.
