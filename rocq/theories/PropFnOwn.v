(* PropFnOwn.v - C16 *)
From Verif Require Import Base ModelFnOwn.

Lemma length_upd {A} (l : list A) i x : length (upd l i x) = length l.
Proof. revert i; induction l as [|y l IH]; intros [|i]; cbn; auto. Qed.
Lemma nth_upd_same {A} (l : list A) i x d : i < length l -> nth i (upd l i x) d = x.
Proof. revert i; induction l as [|y l IH]; intros [|i]; cbn; intro; try lia; auto. apply IH. lia. Qed.
Lemma nth_upd_other {A} (l : list A) i j x d : i <> j -> nth j (upd l i x) d = nth j l d.
Proof. revert i j; induction l as [|y l IH]; intros [|i] [|j] H; cbn; auto; try congruence. Qed.

Record FInv (st : fstate) : Prop := {
  fi_live : forall o, In o (f_live st) -> o < length (f_objs st);
  fi_own : forall o1 o2 b, In o1 (f_live st) -> In o2 (f_live st) -> fnOf st o1 = Some b -> fnOf st o2 = Some b -> o1 = o2;
  fi_ok : forall o b, In o (f_live st) -> fnOf st o = Some b -> b < f_heap st /\ ~ In b (f_freed st);
  fi_freed : NoDup (f_freed st) /\ forall b, In b (f_freed st) -> b < f_heap st;
  fi_used : Forall (fun u => snd u = false) (f_used st);
}.
Definition accounted (st : fstate) : Prop :=
  forall b, b < f_heap st -> In b (f_freed st) \/ exists o, In o (f_live st) /\ fnOf st o = Some b.

Lemma finit_inv : FInv finit /\ accounted finit.
Proof.
  split; [constructor; cbn; try tauto|].
  - split; [constructor|tauto].
  - constructor.
  - intros b H. cbn in H. lia.
Qed.

Lemma alive_spec (l : list nat) os : forallb (fun o => existsb (Nat.eqb o) l) os = true -> forall o, In o os -> In o l.
Proof.
  intros H o Ho. rewrite forallb_forall in H. specialize (H _ Ho). apply existsb_exists in H as (x & Hx & E).
  apply Nat.eqb_eq in E. now subst.
Qed.

Lemma fnOf_mk a b c d e o : fnOf (FState a b c d e) o = nth o a None.
Proof. reflexivity. Qed.
Lemma fnOf_app st o x : o < length (f_objs st) -> nth o (f_objs st ++ [x]) None = fnOf st o.
Proof. intro L. unfold fnOf. now apply app_nth1. Qed.
Lemma nth_last {A} (l : list A) x d : nth (length l) (l ++ [x]) d = x.
Proof. rewrite app_nth2, Nat.sub_diag by lia. reflexivity. Qed.

(* one step keeps the invariant; nothing is lost unless an assignment overwrites
   a callable *)
Lemma fstep_inv st op st' : FInv st -> (forall o, In o (objects_of op) -> In o (f_live st)) -> fstep st op = Ok st' ->
  FInv st' /\ ((forall d s, op = FMoveAssign d s -> d = s \/ fnOf st d = None) -> accounted st -> accounted st').
Proof.
  intros [I1 I2 I3 [I4 I4'] I5] L E. destruct op as [|s|d s|o|o]; cbn [fstep] in E.
  - injection E as <-. split.
    + constructor; cbn [f_objs f_live f_heap f_freed f_used].
      * intros o [<-|H]; rewrite app_length; cbn; [lia|]. apply I1 in H. lia.
      * intros o1 o2 b H1 H2. rewrite ?fnOf_mk.
        destruct H1 as [<-|H1], H2 as [<-|H2]; auto; rewrite ?nth_last, ?fnOf_app by auto; intros E1 E2.
        -- injection E1 as <-. destruct (I3 _ _ H2 E2). lia.
        -- injection E2 as <-. destruct (I3 _ _ H1 E1). lia.
        -- eauto.
      * intros o b [<-|H]; rewrite ?fnOf_mk; rewrite ?nth_last, ?fnOf_app by auto; intro E.
        -- injection E as <-. split; [lia|]. intro C. apply I4' in C. lia.
        -- destruct (I3 _ _ H E). split; [lia|auto].
      * split; auto. intros b H. apply I4' in H. lia.
      * auto.
    + intros _ A b Hb. cbn in *. destruct (Nat.eq_dec b (f_heap st)) as [->|Ne].
      * right. exists (length (f_objs st)). split; auto. apply nth_last.
      * destruct (A b) as [H|(o & Ho & Eo)]; [lia|auto|]. right. exists o. split; auto. rewrite ?fnOf_mk.
        rewrite (fnOf_app st o _ (I1 _ Ho)). auto.
  - assert (Ls : In s (f_live st)) by (apply L; now left). pose proof (I1 _ Ls) as Lt.
    injection E as <-.
    assert (V : forall o, In o (f_live st) -> nth o (upd (f_objs st) s None ++ [fnOf st s]) None = if Nat.eq_dec o s then None else fnOf st o).
    { intros o Ho. pose proof (I1 _ Ho). rewrite app_nth1 by (now rewrite length_upd). destruct (Nat.eq_dec o s) as [->|Ne].
      - now apply nth_upd_same.
      - apply nth_upd_other. congruence. }
    assert (V2 : nth (length (f_objs st)) (upd (f_objs st) s None ++ [fnOf st s]) None = fnOf st s).
    { replace (length (f_objs st)) with (length (upd (f_objs st) s None)) by apply length_upd. apply nth_last. }
    split.
    + constructor; cbn [f_objs f_live f_heap f_freed f_used].
      * intros o [<-|H]; rewrite app_length, length_upd; cbn; [lia|]. apply I1 in H. lia.
      * intros o1 o2 b H1 H2. rewrite ?fnOf_mk.
        destruct H1 as [<-|H1], H2 as [<-|H2]; auto; rewrite ?V2, ?V by auto.
        -- intros E1. destruct (Nat.eq_dec o2 s); [discriminate|]. intro E2. elim n. symmetry. eauto.
        -- destruct (Nat.eq_dec o1 s); [discriminate|]. intros E1 E2. elim n. eauto.
        -- destruct (Nat.eq_dec o1 s), (Nat.eq_dec o2 s); try discriminate. eauto.
      * intros o b [<-|H]; rewrite ?fnOf_mk; rewrite ?V2, ?V by auto; [apply I3; auto|].
        destruct (Nat.eq_dec o s); [discriminate|]. apply I3; auto.
      * auto.
      * auto.
    + intros _ A b Hb. cbn in *. destruct (A b Hb) as [H|(o & Ho & Eo)]; auto. right.
      destruct (Nat.eq_dec o s) as [->|Ne].
      * exists (length (f_objs st)). split; auto. rewrite ?fnOf_mk. now rewrite V2.
      * exists o. split; auto. rewrite ?fnOf_mk. rewrite V by auto. now destruct (Nat.eq_dec o s).
  - destruct (Nat.eqb_spec d s) as [->|Ne].
    { injection E as <-. split; [constructor; auto|auto]. }
    assert (Ld : In d (f_live st)) by (apply L; cbn; auto). assert (Ls : In s (f_live st)) by (apply L; cbn; auto).
    pose proof (I1 _ Ld). pose proof (I1 _ Ls). injection E as <-.
    assert (V : forall o, In o (f_live st) -> nth o (upd (upd (f_objs st) d (fnOf st s)) s None) None =
      if Nat.eq_dec o s then None else if Nat.eq_dec o d then fnOf st s else fnOf st o).
    { intros o Ho. destruct (Nat.eq_dec o s) as [->|N1]; [apply nth_upd_same; now rewrite length_upd|].
      rewrite nth_upd_other by congruence. destruct (Nat.eq_dec o d) as [->|N2]; [now apply nth_upd_same|apply nth_upd_other; congruence]. }
    split.
    + constructor; cbn [f_objs f_live f_heap f_freed f_used]; auto.
      * intros o Ho. rewrite !length_upd. auto.
      * intros o1 o2 b H1 H2. rewrite ?fnOf_mk. rewrite !V by auto.
        destruct (Nat.eq_dec o1 s), (Nat.eq_dec o2 s); try discriminate.
        destruct (Nat.eq_dec o1 d), (Nat.eq_dec o2 d); subst; auto; intros E1 E2.
        -- elim n0. symmetry. eauto.
        -- elim n. eauto.
        -- eauto.
      * intros o b Ho. rewrite ?fnOf_mk. rewrite V by auto.
        destruct (Nat.eq_dec o s); [discriminate|]. destruct (Nat.eq_dec o d); apply I3; auto.
    + intros Q A b Hb. cbn in *. destruct (A b Hb) as [Hf|(o & Ho & Eo)]; auto. right.
      destruct (Nat.eq_dec o s) as [->|N1].
      * exists d. split; auto. rewrite ?fnOf_mk. rewrite V by auto.
        destruct (Nat.eq_dec d s); [contradiction|]. now destruct (Nat.eq_dec d d).
      * exists o. split; auto. rewrite ?fnOf_mk. rewrite V by auto. destruct (Nat.eq_dec o s); [contradiction|].
        destruct (Nat.eq_dec o d) as [->|]; auto. destruct (Q d s eq_refl) as [->|Q2]; congruence.
  - assert (Lo : In o (f_live st)) by (apply L; now left). injection E as <-.
    assert (R : forall x, In x (remove Nat.eq_dec o (f_live (freeBlock st (fnOf st o)))) <-> In x (f_live st) /\ x <> o).
    { intro x. replace (f_live (freeBlock st (fnOf st o))) with (f_live st) by (unfold freeBlock; now destruct (fnOf st o)).
      split; [intro H; apply in_remove in H; tauto|intros (H1 & H2); now apply in_in_remove]. }
    assert (Eo : f_objs (freeBlock st (fnOf st o)) = f_objs st) by (unfold freeBlock; now destruct (fnOf st o)).
    assert (Eh : f_heap (freeBlock st (fnOf st o)) = f_heap st) by (unfold freeBlock; now destruct (fnOf st o)).
    assert (Eu : f_used (freeBlock st (fnOf st o)) = f_used st) by (unfold freeBlock; now destruct (fnOf st o)).
    assert (Ef : f_freed (freeBlock st (fnOf st o)) = f_freed st ++ match fnOf st o with Some b => [b] | None => [] end).
    { unfold freeBlock; destruct (fnOf st o); cbn; auto. now rewrite app_nil_r. }
    split.
    + constructor; cbn [f_objs f_live f_heap f_freed f_used]; rewrite ?Eo, ?Eh, ?Eu, ?Ef.
      * intros x Hx. apply R in Hx. apply I1. tauto.
      * intros o1 o2 b H1 H2. apply R in H1, H2. apply I2; tauto.
      * intros x b Hx. apply R in Hx as (Hx & Ne). intro Ex. rewrite fnOf_mk in Ex. fold (fnOf st x) in Ex.
        destruct (I3 _ _ Hx Ex) as (J1 & J2). split; auto. rewrite in_app_iff. intros [C|C]; auto.
        destruct (fnOf st o) eqn:Eb; [|contradiction]. destruct C as [<-|[]]. apply Ne. eauto.
      * destruct (fnOf st o) as [b|] eqn:Eb; [|rewrite app_nil_r; auto].
        destruct (I3 _ _ Lo Eb). split.
        -- rewrite NoDup_app_iff_custom || idtac.
           apply NoDup_Add with (a := b) (l := f_freed st); [|auto].
           replace (f_freed st) with (f_freed st ++ []) at 1 by apply app_nil_r. apply Add_app.
        -- intros x Hx. rewrite in_app_iff in Hx. destruct Hx as [Hx|[<-|[]]]; auto.
      * auto.
    + intros _ A b Hb. cbn [f_heap f_freed f_live] in *. rewrite Eh in Hb. rewrite Ef.
      destruct (A b Hb) as [Hf|(x & Hx & Ex)]; [left; apply in_or_app; auto|].
      destruct (Nat.eq_dec x o) as [->|Ne].
      * left. apply in_or_app. right. rewrite Ex. now left.
      * right. exists x. split; [apply R; auto|]. rewrite fnOf_mk, Eo; exact Ex.
  - assert (Lo : In o (f_live st)) by (apply L; now left).
    destruct (fnOf st o) as [b|] eqn:Eb; [|discriminate]. injection E as <-. split; [|auto].
    constructor; cbn [f_objs f_live f_heap f_freed f_used]; auto. apply Forall_app. split; auto. constructor; auto. cbn.
    destruct (existsb (Nat.eqb b) (f_freed st)) eqn:Ex; auto. apply existsb_exists in Ex as (x & Hx & Exx).
    apply Nat.eqb_eq in Exx. subst x. destruct (I3 _ _ Lo Eb). contradiction.
Qed.

Lemma frun_inv ops : forall st st', FInv st -> frun st ops = Ok st' -> FInv st'.
Proof.
  induction ops as [|op ops IH]; intros st st' H E; cbn [frun] in E; [now injection E as <-|].
  destruct (forallb _ _) eqn:A; [|discriminate]. apply bind_Ok in E as (s1 & E1 & E2).
  eapply IH; [|exact E2]. eapply fstep_inv; [exact H| |exact E1]. now apply alive_spec.
Qed.

(* ===== C16 ===== *)
(* In every history: no callable is released twice, and no call goes through a
   released one. *)
Theorem c16_never_freed_twice_nor_used_after : forall ops st, frun finit ops = Ok st ->
  NoDup (f_freed st) /\ Forall (fun u => snd u = false) (f_used st).
Proof.
  intros ops st E. pose proof (frun_inv ops _ _ (proj1 finit_inv) E) as H. split; [apply H|apply (fi_used _ H)].
Qed.
Print Assumptions c16_never_freed_twice_nor_used_after.

Lemma frun_app ops1 ops2 : forall st, frun st (ops1 ++ ops2) = bind (frun st ops1) (fun st' => frun st' ops2).
Proof.
  induction ops1 as [|op ops1 IH]; intro st; [reflexivity|]. cbn [app frun].
  destruct (forallb _ _); [|reflexivity]. destruct (fstep st op); cbn [bind]; auto.
Qed.
Lemma frun_cons st op st' ops : (forall o, In o (objects_of op) -> In o (f_live st)) -> fstep st op = Ok st' ->
  frun st (op :: ops) = frun st' ops.
Proof.
  intros L E. cbn [frun]. replace (forallb _ (objects_of op)) with true; [rewrite E; reflexivity|].
  symmetry. apply forallb_forall. intros o Ho. apply existsb_exists. exists o. split; [auto|apply Nat.eqb_refl].
Qed.
Lemma call_none st o : In o (f_live st) -> fnOf st o = None -> frun st [FCall o] = UB.
Proof.
  intros L E. cbn [frun objects_of forallb]. replace (existsb (Nat.eqb o) (f_live st)) with true.
  - cbn [andb fstep]. rewrite E. reflexivity.
  - symmetry. apply existsb_exists. exists o. split; [exact L|apply Nat.eqb_refl].
Qed.
(* A call goes through a callable exactly when the object still has one; after the object was
   moved from, by construction or by assignment to another object, it has none. *)
Theorem c16_moved_from_cannot_be_called : forall ops st o, frun finit ops = Ok st -> In o (f_live st) ->
  frun finit (ops ++ [FMoveNew o; FCall o]) = UB /\
  (forall d, In d (f_live st) -> d <> o -> frun finit (ops ++ [FMoveAssign d o; FCall o]) = UB) /\
  (forall b, fnOf st o = Some b -> exists st', frun finit (ops ++ [FCall o]) = Ok st' /\ f_used st' = f_used st ++ [(b, false)]) /\
  (forall ops', frun finit (ops ++ [FDestroy o] ++ FCall o :: ops') = UB).
Proof.
  intros ops st o E L. pose proof (frun_inv ops _ _ (proj1 finit_inv) E) as H.
  assert (Q : forall x l, In x l -> existsb (Nat.eqb x) l = true).
  { intros x l I1. apply existsb_exists. exists x. split; [exact I1|apply Nat.eqb_refl]. }
  assert (B : o < length (f_objs st)) by (apply (fi_live _ H); exact L).
  repeat split.
  - rewrite frun_app, E. cbn [bind]. erewrite frun_cons; [|intros x [<-|[]]; exact L|reflexivity].
    apply call_none; [cbn [f_live]; right; exact L|].
    unfold fnOf at 1. cbn [f_objs]. rewrite app_nth1 by (now rewrite length_upd). now apply nth_upd_same.
  - intros d Ld Ne. rewrite frun_app, E. cbn [bind].
    erewrite frun_cons; [|intros x [<-|[<-|[]]]; assumption|cbn [fstep]; destruct (Nat.eqb_spec d o); [contradiction|reflexivity]].
    apply call_none; [exact L|].
    unfold fnOf at 1. cbn [f_objs]. apply nth_upd_same. now rewrite length_upd.
  - intros b Eb. rewrite frun_app, E. cbn [bind frun objects_of forallb fstep]. rewrite (Q _ _ L). cbn [andb].
    rewrite Eb. cbn [bind]. eexists. split; [reflexivity|]. cbn [f_used].
    destruct (fi_ok _ H o b L Eb) as (_ & Nf). f_equal. f_equal. f_equal.
    apply not_true_is_false. rewrite existsb_exists. intros (y & I1 & I2). apply Nat.eqb_eq in I2 as ->. contradiction.
  - intros ops'. rewrite frun_app, E. cbn [bind app]. erewrite frun_cons; [|intros x [<-|[]]; exact L|reflexivity].
    cbn [frun objects_of forallb f_live]. replace (existsb _ _) with false; [reflexivity|]. symmetry. apply not_true_is_false. rewrite existsb_exists.
    intros (y & I1 & I2). apply Nat.eqb_eq in I2 as <-. exact (remove_In _ _ _ I1).
Qed.
Print Assumptions c16_moved_from_cannot_be_called.

(* no step of the history assigns over a function that has a callable *)
Fixpoint no_overwrite (st : fstate) (ops : list fop) : Prop :=
  match ops with
  | [] => True
  | op :: ops' =>
    (match op with FMoveAssign d s => d = s \/ fnOf st d = None | _ => True end) /\
    match fstep st op with Ok st' => no_overwrite st' ops' | _ => True end
  end.

Theorem c16_all_freed_without_overwrite : forall ops st, frun finit ops = Ok st -> no_overwrite finit ops ->
  f_live st = [] -> forall b, b < f_heap st -> In b (f_freed st).
Proof.
  intros ops st E NO L. assert (A : accounted st).
  { revert E NO. destruct finit_inv as (H & A). revert H A. generalize finit. clear L.
    induction ops as [|op ops IH]; intros s0 H A E NO; cbn [frun] in E; [now injection E as <-|].
    destruct (forallb _ _) eqn:Al; [|discriminate]. apply bind_Ok in E as (s1 & E1 & E2). cbn [no_overwrite] in NO.
    destruct NO as (N1 & N2). rewrite E1 in N2.
    destruct (fstep_inv s0 op s1 H (alive_spec _ _ Al) E1) as (H1 & A1). apply (IH s1); auto. apply A1; auto.
    intros d s ->. exact N1. }
  intros b Hb. destruct (A b Hb) as [?|(o & Ho & _)]; auto. rewrite L in Ho. contradiction.
Qed.
Print Assumptions c16_all_freed_without_overwrite.

(* Assigning over a live function loses its callable. *)
Theorem c16_assignment_leaks_refuted : exists ops st b, frun finit ops = Ok st /\ f_live st = [] /\ b < f_heap st /\ ~ In b (f_freed st).
Proof.
  exists [FNew; FNew; FMoveAssign 0 1; FDestroy 1; FDestroy 0]. eexists. exists 0. split; [reflexivity|].
  split; [reflexivity|]. split; [cbn; auto|]. cbn. intuition discriminate.
Qed.
Print Assumptions c16_assignment_leaks_refuted.

(* With the overwritten callable released first, nothing is lost in any history,
   and it is still safe. *)
Theorem c16_releasing_assignment_is_enough : forall ops st, frun_fixed finit ops = Ok st ->
  NoDup (f_freed st) /\ Forall (fun u => snd u = false) (f_used st) /\
  (f_live st = [] -> forall b, b < f_heap st -> In b (f_freed st)).
Proof.
  intros ops st E. assert (G : FInv st /\ accounted st).
  { revert E. destruct finit_inv as (H & A). revert H A. generalize finit.
    induction ops as [|op ops IH]; intros s0 H A E; cbn [frun_fixed] in E; [now injection E as <-|].
    destruct (forallb _ _) eqn:Al; [|discriminate]. apply bind_Ok in E as (s1 & E1 & E2). pose proof (alive_spec _ _ Al) as Alv.
    assert (G : FInv s1 /\ accounted s1); [|destruct G; eapply IH; eauto].
    destruct op as [|s|d s|o|o];
      try (destruct (fstep_inv s0 _ s1 H Alv E1) as (H1 & A1); split; [exact H1|apply A1; [discriminate|exact A]]).
    cbn [fstep_fixed] in E1. destruct (Nat.eqb_spec d s) as [->|Ne]; [now injection E1 as <-|].
    (* releasing and assigning is destroying d and move constructing in its place *)
    assert (Ld : In d (f_live s0)) by (apply Alv; cbn; auto).
    assert (Ls : In s (f_live s0)) by (apply Alv; cbn; auto).
    destruct (fnOf s0 d) as [b|] eqn:Eb.
    2: { cbn [freeBlock] in E1. destruct (fstep_inv s0 _ s1 H Alv E1) as (H1 & A1). split; auto. apply A1; auto.
         intros d' s' Q. injection Q as <- <-. auto. }
    cbn [freeBlock fstep] in E1. destruct (Nat.eqb_spec d s); [contradiction|]. injection E1 as <-.
    rewrite ?fnOf_mk. cbn [f_objs f_live f_heap f_freed f_used]. fold (fnOf s0 s).
    destruct H as [I1 I2 I3 [I4 I4'] I5]. pose proof (I1 _ Ld). pose proof (I1 _ Ls).
    assert (V : forall o, In o (f_live s0) -> nth o (upd (upd (f_objs s0) d (fnOf s0 s)) s None) None =
      if Nat.eq_dec o s then None else if Nat.eq_dec o d then fnOf s0 s else fnOf s0 o).
    { intros o Ho. destruct (Nat.eq_dec o s) as [->|N1]; [apply nth_upd_same; now rewrite length_upd|].
      rewrite nth_upd_other by congruence. destruct (Nat.eq_dec o d) as [->|N2]; [now apply nth_upd_same|apply nth_upd_other; congruence]. }
    destruct (I3 _ _ Ld Eb) as (Hb & Nb). split.
    - constructor; cbn [f_objs f_live f_heap f_freed f_used].
      + intros o Ho. rewrite !length_upd. auto.
      + intros o1 o2 b' H1 H2. rewrite ?fnOf_mk. rewrite !V by auto.
        destruct (Nat.eq_dec o1 s), (Nat.eq_dec o2 s); try discriminate.
        destruct (Nat.eq_dec o1 d), (Nat.eq_dec o2 d); subst; auto; intros E1 E3.
        * elim n1. symmetry. eauto.
        * elim n0. eauto.
        * eauto.
      + intros o b' Ho. rewrite ?fnOf_mk. rewrite V by auto. destruct (Nat.eq_dec o s); [discriminate|].
        destruct (Nat.eq_dec o d) as [->|Nd]; intro Eo.
        * destruct (I3 _ _ Ls Eo). split; auto. rewrite in_app_iff. intros [C|[<-|[]]]; auto. elim Ne. eauto.
        * destruct (I3 _ _ Ho Eo). split; auto. rewrite in_app_iff. intros [C|[<-|[]]]; auto. elim Nd. eauto.
      + split.
        * apply NoDup_Add with (a := b) (l := f_freed s0); [|auto].
          replace (f_freed s0) with (f_freed s0 ++ []) at 1 by apply app_nil_r. apply Add_app.
        * intros x Hx. rewrite in_app_iff in Hx. destruct Hx as [Hx|[<-|[]]]; auto.
      + auto.
    - intros x Hx. cbn [f_heap f_freed f_live] in *. destruct (A x Hx) as [Hf|(o & Ho & Eo)]; [left; apply in_or_app; auto|].
      destruct (Nat.eq_dec o d) as [->|Nd]; [left; apply in_or_app; right; left; congruence|]. right.
      destruct (Nat.eq_dec o s) as [->|Ns].
      + exists d. split; auto. rewrite ?fnOf_mk. rewrite V by auto.
        destruct (Nat.eq_dec d s); [contradiction|]. now destruct (Nat.eq_dec d d).
      + exists o. split; auto. rewrite ?fnOf_mk. rewrite V by auto.
        destruct (Nat.eq_dec o s); [contradiction|]. now destruct (Nat.eq_dec o d). }
  destruct G as (H & A). split; [apply H|]. split; [apply (fi_used _ H)|].
  intros L b Hb. destruct (A b Hb) as [?|(o & Ho & _)]; auto. rewrite L in Ho. contradiction.
Qed.
Print Assumptions c16_releasing_assignment_is_enough.

Definition ex_ops := [FNew; FNew; FMoveNew 0; FCall 2; FMoveAssign 0 2; FCall 0; FDestroy 2; FDestroy 1; FDestroy 0].
Example c16_ex : exists st, frun finit ex_ops = Ok st /\ no_overwrite finit ex_ops /\
  f_freed st = [1; 0] /\ f_used st = [(0, false); (0, false)] /\ f_live st = [].
Proof.
  eexists. split; [vm_compute; reflexivity|]. split; [vm_compute|vm_compute; auto].
  repeat (split; [first [exact I | right; reflexivity]|]). exact I.
Qed.
