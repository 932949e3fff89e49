(* PropNode.v - C46 *)
From Coq Require String. Import String.StringSyntax.
From Verif Require Import Base Dec ModelConfig SpecConfig PropConfig.
Local Open Scope outcome_scope.

(* views of a tree *)
Definition has n q := node_has n q = true.
Definition pr n q m := In m (links_of (node_sub n q)).

Lemma has_nil n : has n [].
Proof. reflexivity. Qed.
Lemma has_cons n x q : has n (x :: q) <-> exists c, afind x (children_of n) = Some c /\ has c q.
Proof.
  unfold has. cbn [node_has]. destruct (afind x (children_of n)); split; intro H; try discriminate; eauto.
  - destruct H as (c & E & H). now injection E as ->.
  - destruct H as (c & E & _). discriminate.
Qed.
Lemma pr_cons n x q m : pr n (x :: q) m <-> exists c, afind x (children_of n) = Some c /\ pr c q m.
Proof.
  unfold pr. cbn [node_sub]. destruct (afind x (children_of n)); split; intro H; try (now cbn in H); eauto.
  - destruct H as (c & E & H). now injection E as ->.
  - destruct H as (c & E & _). discriminate.
Qed.
Lemma has_empty q : has empty_node q <-> q = [].
Proof. destruct q; [split; auto; intros; apply has_nil|]. rewrite has_cons. cbn. split; [intros (c & E & _); discriminate|discriminate]. Qed.
Lemma pr_empty q m : ~ pr empty_node q m.
Proof. destruct q; [unfold pr; cbn; tauto|]. rewrite pr_cons. cbn. intros (c & E & _). discriminate. Qed.
Lemma pr_has n : forall q m, pr n q m -> has n q.
Proof.
  intro q. revert n. induction q as [|x q IH]; intros n m H; [apply has_nil|].
  apply pr_cons in H as (c & E & H). apply has_cons. exists c. split; auto. eauto.
Qed.
Lemma prefix_nil p : prefix [] p.
Proof. now exists p. Qed.
Lemma prefix_refl p : prefix p p.
Proof. exists []. now rewrite app_nil_r. Qed.
Lemma prefix_cons x y p q : prefix (x :: p) (y :: q) <-> x = y /\ prefix p q.
Proof.
  split.
  - intros (r & E). cbn in E. injection E as <- ->. split; auto. now exists r.
  - intros (-> & r & ->). now exists r.
Qed.
Lemma prefix_cons_nil x p : ~ prefix (x :: p) [].
Proof. intros (r & E). discriminate. Qed.
Lemma prefix_to_nil p : prefix p [] <-> p = [].
Proof. split; [intros (r & E); destruct p; [auto|discriminate]|intros ->; apply prefix_nil]. Qed.

(* node_at: lookups in the changed tree *)
Lemma has_at f : forall p n q, (forall m r, has (f m) r <-> has m r) -> (has (node_at n p f) q <-> has n q \/ prefix q p).
Proof.
  induction p as [|x p IH]; intros n q Hf.
  - cbn [node_at]. rewrite Hf, prefix_to_nil. split; auto. intros [H| ->]; auto. apply has_nil.
  - cbn [node_at]. destruct q as [|y q]; [split; [intros _; left; apply has_nil|intros _; apply has_nil]|].
    rewrite !has_cons, prefix_cons. cbn [children_of].
    destruct (str_dec y x) as [->|Ne].
    + rewrite afind_aset_same. split.
      * intros (c & E & H). injection E as <-. apply (IH _ _ Hf) in H as [H|H]; [|auto].
        destruct (afind x (children_of n)) as [c|]; [left; eauto|]. apply has_empty in H. subst q. right. split; auto. apply prefix_nil.
      * intro H. eexists. split; [reflexivity|]. apply (IH _ _ Hf). destruct H as [(c & E & H)|(_ & H)]; [rewrite E|]; auto.
    + rewrite afind_aset_other by auto. split; [auto|]. intros [H|(E & _)]; [auto|congruence].
Qed.
Lemma pr_at f : forall p n q m, (forall x r s, r <> [] -> (pr (f x) r s <-> pr x r s)) ->
  (pr (node_at n p f) q m <-> (q <> p /\ pr n q m) \/ (q = p /\ In m (links_of (f (node_sub n p))))).
Proof.
  induction p as [|x p IH]; intros n q m Hf.
  - cbn [node_at node_sub]. destruct q as [|y q].
    + unfold pr. cbn [node_sub]. intuition congruence.
    + rewrite Hf by discriminate. intuition congruence.
  - cbn [node_at]. destruct q as [|y q].
    + unfold pr. cbn. intuition congruence.
    + rewrite !pr_cons. cbn [children_of node_sub]. destruct (str_dec y x) as [->|Ne].
      * rewrite afind_aset_same. split.
        -- intros (c & E & H). injection E as <-. apply (IH _ _ _ Hf) in H.
           destruct (afind x (children_of n)) as [c|] eqn:Ec.
           ++ destruct H as [(N & H)|(-> & H)]; [left; split; [congruence|eauto]|right; auto].
           ++ destruct H as [(N & H)|(-> & H)]; [elim (pr_empty _ _ H)|]. right. split; auto.
              enough (Z : node_sub empty_node p = empty_node) by now rewrite Z in H. now destruct p.
        -- intro H. eexists. split; [reflexivity|]. apply (IH _ _ _ Hf).
           destruct H as [(N & c & E & H)|(Eq & H)].
           ++ rewrite E. left. split; [congruence|auto].
           ++ injection Eq as ->. right. split; auto. destruct (afind x (children_of n)) as [c|]; auto.
              enough (Z : node_sub empty_node p = empty_node) by now rewrite Z. now destruct p.
      * rewrite afind_aset_other by auto. split.
        -- intro H. left. split; [congruence|auto].
        -- intros [(_ & H)|(E & _)]; [auto|congruence].
Qed.

Lemma set_insert_In x l : forall m, In m (set_insert x l) <-> m = x \/ In m l.
Proof.
  induction l as [|y l IH]; intro m; cbn [set_insert]; [cbn; intuition congruence|].
  destruct (path_ltb x y) eqn:E1; [cbn; intuition congruence|].
  destruct (path_ltb y x) eqn:E2; cbn [In].
  - rewrite IH. intuition congruence.
  - assert (x = y) by now apply c45_strict_total_order. subst. intuition congruence.
Qed.

Lemma has_add n l p q : has (node_add n l p) q <-> has n q \/ prefix q p.
Proof. apply has_at. intros m r. destruct r; [split; intros; apply has_nil|]. rewrite !has_cons. reflexivity. Qed.
Lemma pr_add n l p q m : pr (node_add n l p) q m <-> pr n q m \/ (q = p /\ m = l).
Proof.
  unfold node_add. rewrite pr_at.
  - cbn [links_of]. rewrite set_insert_In. destruct (list_eq_dec str_dec q p) as [->|Ne]; unfold pr; intuition congruence.
  - intros x [|y r] s Hr; [congruence|]. rewrite !pr_cons. reflexivity.
Qed.
Lemma has_get n p q : has (node_get n p) q <-> has n q \/ prefix q p.
Proof. apply has_at. reflexivity. Qed.
Lemma pr_get n p q m : pr (node_get n p) q m <-> pr n q m.
Proof.
  unfold node_get. rewrite pr_at by reflexivity. destruct (list_eq_dec str_dec q p) as [->|Ne]; unfold pr; intuition congruence.
Qed.

Lemma pr_erase : forall p n q m, pr (node_erase n p) q m <-> pr n q m /\ ~ prefix p q.
Proof.
  induction p as [|x p IH]; intros n q m.
  - cbn [node_erase]. split; [intro H; elim (pr_empty _ _ H)|]. intros (_ & H). elim H. apply prefix_nil.
  - cbn [node_erase]. destruct (afind x (children_of n)) as [c|] eqn:Ec.
    2: { split; [|tauto]. intro H. split; auto. intros (r & ->). cbn [app] in H. apply pr_cons in H as (c & E & _). congruence. }
    set (c' := node_erase c p) in *.
    destruct q as [|y q].
    + split.
      * intro H. split; [|apply prefix_cons_nil]. unfold pr in *. cbn [node_sub] in *. destruct (links_of c') , (children_of c'); exact H.
      * intros (H & _). unfold pr in *. cbn [node_sub] in *. destruct (links_of c') , (children_of c'); exact H.
    + rewrite pr_cons, prefix_cons. destruct (str_dec y x) as [->|Ne].
      * assert (G : (exists c0, Some c' = Some c0 /\ pr c0 q m) <-> pr n (x :: q) m /\ ~ (x = x /\ prefix p q)).
        { rewrite pr_cons, Ec. split.
          - intros (c0 & E & H). injection E as <-. apply IH in H as (H & N). split; [eauto|tauto].
          - intros ((c0 & E & H) & N). injection E as <-. exists c'. split; auto. apply IH. tauto. }
        rewrite pr_cons in G. destruct (links_of c') as [|l0 ls] eqn:El; [destruct (children_of c') as [|k0 ks] eqn:Ek|]; cbn [children_of];
          rewrite ?afind_aset_same, ?afind_aerase_same; rewrite ?pr_cons; auto.
        rewrite <- G. split; [intros (c0 & E & _); discriminate|]. intros (c0 & E & H). injection E as <-. exfalso.
        destruct q as [|z q]; [unfold pr in H; cbn in H; now rewrite El in H|]. apply pr_cons in H as (c1 & E & _). now rewrite Ek in E.
      * assert (G : (exists c0, afind y (children_of n) = Some c0 /\ pr c0 q m) <-> pr n (y :: q) m /\ ~ (x = y /\ prefix p q)).
        { rewrite pr_cons. intuition congruence. }
        destruct (links_of c') as [|l0 ls]; [destruct (children_of c') as [|k0 ks]|]; cbn [children_of];
          rewrite ?afind_aset_other, ?afind_aerase_other by auto; auto.
Qed.

Definition stays n p q := exists r, prefix q r /\ has n r /\ ~ prefix p r /\ (~ prefix r p \/ exists m, pr n r m).
Lemma stays_cons n x p q c : afind x (children_of n) = Some c -> (stays n (x :: p) (x :: q) <-> stays c p q).
Proof.
  intro Ec. split.
  - intros (r & P1 & H & P2 & Q). destruct r as [|y r]; [elim (prefix_cons_nil _ _ P1)|].
    apply prefix_cons in P1 as (<- & P1). exists r. split; auto. rewrite prefix_cons in P2, Q. rewrite has_cons in H. destruct H as (c0 & E & H).
    assert (c0 = c) by congruence. subst c0. split; auto. split; [tauto|]. destruct Q as [Q|(m & Q)]; [tauto|].
    right. exists m. apply pr_cons in Q as (c0 & E2 & Q). congruence.
  - intros (r & P1 & H & P2 & Q). exists (x :: r). rewrite !prefix_cons. split; [auto|]. split; [apply has_cons; eauto|].
    split; [tauto|]. destruct Q as [Q|(m & Q)]; [tauto|]. right. exists m. apply pr_cons. eauto.
Qed.

Lemma has_erase : forall p n q, has (node_erase n p) q <-> q = [] \/ stays n p q.
Proof.
  induction p as [|x p IH]; intros n q.
  - cbn [node_erase]. rewrite has_empty. split; auto. intros [H|(r & _ & _ & H & _)]; auto. elim H. apply prefix_nil.
  - destruct q as [|y q]; [split; auto; intros; apply has_nil|].
    assert (other : y <> x -> (has n (y :: q) <-> stays n (x :: p) (y :: q))).
    { intro Ne. split.
      - intro H. exists (y :: q). split; [apply prefix_refl|]. split; auto. rewrite !prefix_cons. split; [intuition congruence|left; intuition congruence].
      - intros (r & (s & ->) & H & _). clear - H. revert n H. generalize (y :: q) as z. induction z as [|a z IHz]; intros n H; [apply has_nil|].
        cbn [app] in H. apply has_cons in H as (c & E & H). apply has_cons. exists c. split; auto. }
    cbn [node_erase]. destruct (afind x (children_of n)) as [c|] eqn:Ec.
    2: { split.
         - intro H. right. destruct (str_dec y x) as [->|Ne]; [|now apply other]. apply has_cons in H as (c & E & _). congruence.
         - intros [H|H]; [discriminate|]. destruct (str_dec y x) as [->|Ne]; [|now apply other].
           destruct H as (r & P1 & H & _). destruct r as [|z r]; [elim (prefix_cons_nil _ _ P1)|].
           apply prefix_cons in P1 as (<- & _). apply has_cons in H as (c & E & _). congruence. }
    set (c' := node_erase c p) in *.
    assert (IHc : forall q, has c' q <-> q = [] \/ stays c p q) by (intro; apply IH).
    assert (PRc : forall q m, pr c' q m <-> pr c q m /\ ~ prefix p q) by (intros; apply pr_erase).
    destruct (str_dec y x) as [->|Ne].
    + rewrite (stays_cons n x p q c Ec).
      assert (G : links_of c' <> [] \/ children_of c' <> [] -> (has c' q <-> stays c p q)).
      { intro Hne. rewrite IHc. split; [|auto]. intros [->|H]; auto.
        destruct Hne as [Hl|Hc].
        - destruct (links_of c') as [|l0 ls] eqn:El; [congruence|].
          assert (P : pr c' [] l0) by (unfold pr; cbn; rewrite El; now left).
          apply PRc in P as (P & NP). exists []. split; [apply prefix_refl|]. split; [apply has_nil|]. split; auto. right. eauto.
        - destruct (children_of c') as [|(k & d) ks] eqn:Ek; [congruence|].
          assert (P : has c' [k]) by (apply has_cons; exists d; rewrite Ek; cbn; rewrite str_eqb_refl; split; auto; apply has_nil).
          apply IHc in P as [P|(r & (s & ->) & P)]; [discriminate|]. exists ([k] ++ s). split; auto. apply prefix_nil. }
      rewrite has_cons.
      destruct (links_of c') as [|l0 ls] eqn:El; [destruct (children_of c') as [|k0 ks] eqn:Ek|]; cbn [children_of];
        rewrite ?afind_aset_same, ?afind_aerase_same.
      * split; [intros (c0 & E & _); discriminate|]. intros [H|H]; [discriminate|]. exfalso.
        destruct H as (r & P1 & H & P2 & Q).
        assert (Hr : has c' r) by (apply IHc; right; exists r; split; [apply prefix_refl|auto]).
        destruct r as [|z r]; [|apply has_cons in Hr as (c1 & E & _); now rewrite Ek in E].
        destruct Q as [Q|(m & Q)]; [apply Q, prefix_nil|].
        assert (P : pr c' [] m) by (apply PRc; auto). unfold pr in P. cbn in P. now rewrite El in P.
      * rewrite <- G by (right; discriminate). split; [intros (c0 & E & H); injection E as <-; auto|intros [H|H]; [discriminate|eauto]].
      * rewrite <- G by (left; discriminate). split; [intros (c0 & E & H); injection E as <-; auto|intros [H|H]; [discriminate|eauto]].
    + rewrite <- (other Ne). rewrite !has_cons.
      destruct (links_of c') as [|l0 ls]; [destruct (children_of c') as [|k0 ks]|]; cbn [children_of];
          rewrite ?afind_aset_other, ?afind_aerase_other by auto; (split; [auto|intros [H|H]; [discriminate|auto]]).
Qed.

(* well formed trees: a key once per node, the links of a node sorted *)
From Coq Require Import Sorted.
Inductive nwf : node -> Prop :=
| NWF l c : StronglySorted (fun a b => path_ltb a b = true) l -> NoDup (akeys c) -> (forall k d, In (k, d) c -> nwf d) -> nwf (Node l c).

Lemma set_insert_sorted x l : StronglySorted (fun a b => path_ltb a b = true) l -> StronglySorted (fun a b => path_ltb a b = true) (set_insert x l).
Proof.
  induction 1 as [|y l S IH F]; cbn [set_insert]; [constructor; constructor|].
  destruct (path_ltb x y) eqn:E1.
  - constructor; [constructor; auto|]. constructor; auto. eapply Forall_impl; [|exact F]. cbn. intros z Hz. eapply path_ltb_trans; eauto.
  - destruct (path_ltb y x) eqn:E2; [|constructor; auto]. constructor; auto.
    apply Forall_forall. intros z Hz. apply set_insert_In in Hz as [->|Hz]; auto. rewrite Forall_forall in F. auto.
Qed.
Lemma sorted_NoDup l : StronglySorted (fun a b => path_ltb a b = true) l -> NoDup l.
Proof.
  induction 1 as [|y l S IH F]; constructor; auto. intro H. rewrite Forall_forall in F. apply F in H. rewrite path_ltb_irrefl in H. discriminate.
Qed.
Lemma In_aset_inv {V} k (v : V) m k' v' : In (k', v') (aset k v m) -> (k' = k /\ v' = v) \/ In (k', v') m.
Proof.
  induction m as [|(k2 & v2) m IH]; cbn [aset].
  - intros [H|[]]. injection H; auto.
  - destruct (str_eqb k k2).
    + intros [H|H]; [injection H; auto|right; now right].
    + intros [H|H]; [right; now left|]. destruct (IH H); auto. right. now right.
Qed.
Lemma In_aerase_inv {V} k (m : list (str * V)) k' v' : In (k', v') (aerase k m) -> In (k', v') m.
Proof.
  induction m as [|(k2 & v2) m IH]; cbn [aerase]; auto. destruct (str_eqb k k2); [right; auto|]. intros [H|H]; [now left|right; auto].
Qed.
Lemma nwf_empty : nwf empty_node.
Proof. constructor; [constructor|constructor|intros k d []]. Qed.
Lemma nwf_child n x c : nwf n -> afind x (children_of n) = Some c -> nwf c.
Proof. intros H E. destruct H as [l ch _ _ F]. apply afind_In in E. eauto. Qed.
Lemma nwf_at f : (forall m, nwf m -> nwf (f m)) -> forall p n, nwf n -> nwf (node_at n p f).
Proof.
  intro Hf. induction p as [|x p IH]; intros n H; cbn [node_at]; auto.
  assert (C : nwf (match afind x (children_of n) with Some c => c | None => empty_node end)).
  { destruct (afind x (children_of n)) eqn:E; [eapply nwf_child; eauto|apply nwf_empty]. }
  destruct H as [l ch S ND F]. cbn [links_of children_of] in *. constructor; auto; [now apply NoDup_akeys_aset|].
  intros k d Hin. apply In_aset_inv in Hin as [(-> & ->)|Hin]; eauto.
Qed.
Lemma nwf_erase : forall p n, nwf n -> nwf (node_erase n p).
Proof.
  induction p as [|x p IH]; intros n H; cbn [node_erase]; [apply nwf_empty|].
  destruct (afind x (children_of n)) as [c|] eqn:E; auto. pose proof (IH c (nwf_child _ _ _ H E)) as C.
  destruct H as [l ch S ND F]. cbn [links_of children_of] in *.
  assert (A : nwf (Node l (aset x (node_erase c p) ch))).
  { constructor; auto; [now apply NoDup_akeys_aset|]. intros k d Hin. apply In_aset_inv in Hin as [(-> & ->)|Hin]; eauto. }
  destruct (links_of (node_erase c p)); auto. destruct (children_of (node_erase c p)); auto.
  constructor; auto; [now apply NoDup_akeys_aerase|]. intros k d Hin. apply In_aerase_inv in Hin. eauto.
Qed.
Lemma nwf_step n o : nwf n -> nwf (nstep n o).
Proof.
  intro H. destruct o as [l p|p|p]; cbn [nstep]; [|now apply nwf_erase|].
  - apply nwf_at; auto. intros m Hm. destruct Hm as [l' c S ND F]. cbn. constructor; auto. now apply set_insert_sorted.
  - apply nwf_at; auto.
Qed.

(* the tree after a history has the view the specification gives it *)
Lemma run_views h : nwf (nrun h) /\ (forall q, has (nrun h) q <-> nodes (wrun h) q) /\ (forall q m, pr (nrun h) q m <-> pairs (wrun h) q m).
Proof.
  unfold nrun, wrun.
  assert (G : forall h n w, nwf n -> (forall q, has n q <-> nodes w q) -> (forall q m, pr n q m <-> pairs w q m) ->
     let n' := fold_left nstep h n in let w' := fold_left wstep h w in
     nwf n' /\ (forall q, has n' q <-> nodes w' q) /\ (forall q m, pr n' q m <-> pairs w' q m)).
  { induction h0 as [|o h0 IH]; intros n w W H P; cbn [fold_left]; [auto|]. apply IH.
    - now apply nwf_step.
    - intro q. destruct o as [l p|p|p]; cbn [nstep wstep nodes].
      + now rewrite has_add, H.
      + rewrite has_erase. unfold stays. split; (intros [Hq|(r & P1 & Hr & P2 & Q)]; [auto|right; exists r]).
        * rewrite H in Hr. split; auto. split; auto. split; auto. destruct Q as [Q|(m & Q)]; auto. right. exists m. now apply P.
        * rewrite <- H in Hr. split; auto. split; auto. split; auto. destruct Q as [Q|(m & Q)]; auto. right. exists m. now apply P.
      + now rewrite has_get, H.
    - intros q m. destruct o as [l p|p|p]; cbn [nstep wstep pairs].
      + now rewrite pr_add, P.
      + now rewrite pr_erase, P.
      + now rewrite pr_get, P. }
  apply G; [apply nwf_empty|intro q; apply has_empty|].
  intros q m. cbn. split; [apply pr_empty|tauto].
Qed.

(* ---- subtree ---- *)
Lemma subtree_spec : forall n prefix, nwf n -> (forall q k, has n (q ++ [k]) -> component_ok dot k) ->
  exists l, node_subtree prefix n = Ok l /\ NoDup l /\ forall q m, In (q, m) l <-> exists r, q = prefix ++ r /\ pr n r m.
Proof.
  fix IH 1. intros [links children] prefix W K. inversion W as [l c S ND F E]; subst l c.
  cbn [node_subtree].
  assert (G : exists l, (fix go (l : list (str * node)) : outcome (list (path * path)) :=
      match l with
      | [] => Ok []
      | (k, c) :: l' =>
        do p <- path_join prefix k dot;
        do a <- node_subtree p c;
        do b <- go l';
        Ok (a ++ b)
      end) children = Ok l /\ NoDup l /\ forall q m, In (q, m) l <-> exists k c r, In (k, c) children /\ q = prefix ++ k :: r /\ pr c r m).
  { assert (K' : forall k c, In (k, c) children -> component_ok dot k /\ forall q k', has c (q ++ [k']) -> component_ok dot k').
    { intros k c Hin. assert (Ef : afind k children = Some c) by now apply In_afind_NoDup. split.
      - apply (K [] k). apply has_cons. exists c. split; auto. apply has_nil.
      - intros q k' H. apply (K (k :: q) k'). cbn [app]. apply has_cons. exists c. auto. }
    clear K W S. revert ND F K'. induction children as [|(k & c) ch IHc]; intros ND F K'.
    - exists []. split; auto. split; [constructor|]. intros q m. split; [intros []|intros (k & c & r & [] & _)].
    - destruct (K' k c (or_introl eq_refl)) as (Kk & Kc).
      assert (Ep : path_join prefix k dot = Ok (prefix ++ [k])).
      { apply c44_join_appends. exists [k]. split; auto.
        pose proof (c44_print_then_parse dot [k] (Forall_cons _ Kk (Forall_nil _))) as Q. cbn in Q. now rewrite app_nil_r in Q. }
      destruct (IH c (prefix ++ [k]) (F k c (or_introl eq_refl)) Kc) as (la & Ea & NDa & Ia).
      cbn [akeys map fst] in ND. inversion ND as [|? ? Nk ND']; subst.
      destruct IHc as (lb & Eb & NDb & Ib); auto.
      { intros k' d Hin. apply (F k' d). now right. }
      { intros k' d Hin. apply K'. now right. }
      exists (la ++ lb). rewrite Ep. cbn [bind]. rewrite Ea. cbn [bind]. rewrite Eb. cbn [bind]. split; auto. split.
      + clear - NDa NDb Ia Ib Nk. induction NDa as [|(q & m) la Hn NDa IHa]; cbn [app]; auto.
        assert (D : ~ In (q, m) lb).
        { intro Hb. apply Ib in Hb as (k' & c' & r' & Hin & -> & _).
          destruct (proj1 (Ia (prefix ++ k' :: r') m) (or_introl eq_refl)) as (r & Er & _).
          rewrite <- app_assoc in Er. apply app_inv_head in Er. cbn in Er. injection Er as -> _.
          apply Nk. apply in_map_iff. exists (k, c'). auto. }
        assert (ND : NoDup (la ++ lb)).
        { clear IHa. assert (X : forall x, In x la -> ~ In x lb).
          { intros (q' & m') Hq Hb. apply Ib in Hb as (k' & c' & r' & Hin & -> & _).
            destruct (proj1 (Ia (prefix ++ k' :: r') m') (or_intror Hq)) as (r & Er & _).
            rewrite <- app_assoc in Er. apply app_inv_head in Er. cbn in Er. injection Er as -> _.
            apply Nk. apply in_map_iff. exists (k, c'). auto. }
          clear - NDa NDb X. induction NDa as [|z la Hz NDa IHa]; cbn; auto. constructor.
          - rewrite in_app_iff. intros [Q|Q]; [auto|]. apply (X z); auto. now left.
          - apply IHa. intros y Hy. apply X. now right. }
        constructor; auto. rewrite in_app_iff. tauto.
      + intros q m. rewrite in_app_iff, Ia, Ib. split.
        * intros [(r & -> & H)|(k' & c' & r & Hin & -> & H)].
          -- exists k, c, r. split; [now left|]. now rewrite <- app_assoc.
          -- exists k', c', r. split; [now right|auto].
        * intros (k' & c' & r & [Hin|Hin] & -> & H).
          -- injection Hin as -> ->. left. exists r. now rewrite <- app_assoc.
          -- right. exists k', c', r. auto. }
  destruct G as (lr & -> & NDr & Ir). cbn [bind]. eexists. split; [reflexivity|]. split.
  - assert (X : forall x, In x (map (fun l => (prefix, l)) links) -> ~ In x lr).
    { intros x Hx Hr. apply in_map_iff in Hx as (l & <- & _). apply Ir in Hr as (k & c & r & _ & Er & _).
      assert (Z : prefix ++ [] = prefix ++ k :: r) by now rewrite app_nil_r. apply app_inv_head in Z. discriminate. }
    pose proof (sorted_NoDup _ S) as NDl.
    assert (NDm : NoDup (map (fun l => (prefix, l)) links)).
    { clear - NDl. induction NDl as [|z l Hz NDl IHl]; cbn; constructor; auto. intro C. apply in_map_iff in C as (y & E & Hy). congruence. }
    clear - X NDm NDr. induction NDm as [|z la Hz NDa IHa]; cbn; auto. constructor.
    + rewrite in_app_iff. intros [Q|Q]; [auto|]. apply (X z); auto. now left.
    + apply IHa. intros y Hy. apply X. now right.
  - intros q m. rewrite in_app_iff, Ir. split.
    + intros [H|(k & c & r & Hin & -> & H)].
      * apply in_map_iff in H as (l & E & Hl). injection E as <- <-. exists []. rewrite app_nil_r. split; auto.
      * exists (k :: r). split; auto. apply pr_cons. exists c. split; auto. now apply In_afind_NoDup.
    + intros ([|k r] & -> & H).
      * left. rewrite app_nil_r. apply in_map_iff. exists m. auto.
      * right. apply pr_cons in H as (c & Ef & H). apply afind_In in Ef. exists k, c, r. auto.
Qed.

(* ===== C46 ===== *)
(* has() after any history answers whether the path has a node in the specified set *)
Theorem c46_has_agrees : forall h q, node_has (nrun h) q = true <-> nodes (wrun h) q.
Proof. intros h q. exact (proj1 (proj2 (run_views h)) q). Qed.
Print Assumptions c46_has_agrees.

(* subtree() lists exactly the pairs present, each once, if no component of the
   paths used contains the default separator *)
Theorem c46_subtree_agrees : forall h, Forall (fun o => Forall (component_ok 46%N) (op_path o)) h ->
  exists l, subtree (nrun h) = Ok l /\ NoDup l /\ forall q m, In (q, m) l <-> pairs (wrun h) q m.
Proof.
  intros h F. destruct (run_views h) as (W & H & P).
  assert (K : forall q, nodes (wrun h) q -> Forall (component_ok dot) q).
  { unfold wrun. clear W H P. assert (G : forall w, (forall q, nodes w q -> Forall (component_ok dot) q) -> forall q, nodes (fold_left wstep h w) q -> Forall (component_ok dot) q).
    { induction F as [|o h Fo F IH]; intros w Hw; cbn [fold_left]; auto. apply IH. intros q Hq.
      assert (Pre : forall a b, prefix a b -> Forall (component_ok dot) b -> Forall (component_ok dot) a).
      { intros a b (r & ->) Fb. apply Forall_app in Fb. tauto. }
      destruct o as [l p|p|p]; cbn [wstep nodes op_path] in *.
      - destruct Hq as [Hq|Hq]; [exact (Hw _ Hq)|exact (Pre _ _ Hq Fo)].
      - destruct Hq as [->|(r & P1 & Hr & _)]; [constructor|exact (Pre _ _ P1 (Hw _ Hr))].
      - destruct Hq as [Hq|Hq]; eauto. }
    apply G. cbn. intros q ->. constructor. }
  destruct (subtree_spec (nrun h) [] W) as (l & E & ND & I).
  { intros q k Hq. apply H, K in Hq. apply Forall_app in Hq as (_ & Hq). now inversion Hq. }
  exists l. split; auto. split; auto. intros q m. rewrite I, <- P. split; [intros (r & -> & Q); exact Q|intro Q; exists q; auto].
Qed.
Print Assumptions c46_subtree_agrees.

(* with another separator the listed path can be a different one, or an error *)
Theorem c46_subtree_other_separator_refuted : exists h p l, path_of (lit "a.b") 47%N = Ok p /\ h = [NAdd l p] /\
  exists r, subtree (nrun h) = Ok r /\ ~ (forall q m, In (q, m) r <-> pairs (wrun h) q m).
Proof.
  do 3 eexists. split; [reflexivity|]. split; [reflexivity|]. eexists. split; [reflexivity|].
  intro C. destruct (C [lit "a"; lit "b"] [lit "x"]) as (C1 & _). cbn in C1. destruct C1 as [C1|(C1 & _)]; [left; reflexivity|exact C1|discriminate C1].
Qed.
Print Assumptions c46_subtree_other_separator_refuted.
Theorem c46_subtree_separator_error_refuted : exists h p, path_of (lit "a..b") 47%N = Ok p /\ h = [NAdd [lit "x"] p] /\ subtree (nrun h) = Abort.
Proof. do 2 eexists. split; [reflexivity|]. split; reflexivity. Qed.
Print Assumptions c46_subtree_separator_error_refuted.

(* Erase removes exactly the pairs at or below the path *)
Theorem c46_erase_exact : forall h p l1 l2, Forall (fun o => Forall (component_ok 46%N) (op_path o)) h -> Forall (component_ok 46%N) p ->
  subtree (nrun h) = Ok l1 -> subtree (node_erase (nrun h) p) = Ok l2 ->
  forall q m, In (q, m) l2 <-> In (q, m) l1 /\ ~ prefix p q.
Proof.
  intros h p l1 l2 F Fp E1 E2 q m. destruct (c46_subtree_agrees h F) as (k1 & E1' & _ & I1).
  assert (F2 : Forall (fun o => Forall (component_ok dot) (op_path o)) (h ++ [NErase p])).
  { apply Forall_app. split; auto. }
  destruct (c46_subtree_agrees _ F2) as (k2 & E2' & _ & I2).
  assert (k1 = l1) by congruence. subst k1.
  assert (k2 = l2). { unfold nrun in E2'. rewrite fold_left_app in E2'. cbn [fold_left nstep] in E2'. fold (nrun h) in E2'. congruence. }
  subst k2. rewrite I1, I2. unfold wrun. rewrite fold_left_app. reflexivity.
Qed.
Print Assumptions c46_erase_exact.

(* ... and a tree built with add and erase only never keeps an empty branch: a path
   has a node exactly when a link is stored at or below it *)
Theorem c46_no_empty_branches : forall h, (forall p, ~ In (NGet p) h) -> forall q,
  node_has (nrun h) q = true <-> q = [] \/ exists r m, prefix q r /\ pairs (wrun h) r m.
Proof.
  intros h N q. rewrite c46_has_agrees. revert q. induction h as [|o h IH] using rev_ind; intro q.
  - cbn. split; auto. intros [H|(r & m & _ & [])]; auto.
  - assert (N' : forall p, ~ In (NGet p) h) by (intros p Hp; apply (N p), in_or_app; auto).
    specialize (IH N'). unfold wrun in *. rewrite fold_left_app. cbn [fold_left]. set (w := fold_left wstep h winit) in *.
    assert (T : forall a b c, prefix a b -> prefix b c -> prefix a c).
    { intros a b c (x & ->) (y & ->). exists (x ++ y). now rewrite app_assoc. }
    destruct o as [l p|p|p]; cbn [wstep nodes pairs].
    + rewrite IH. split.
      * intros [[H|(r & m & Q & H)]|H]; auto; right; [exists r, m; auto|exists p, l; auto].
      * intros [H|(r & m & Q & [H|(-> & ->)])]; auto. left. right. eauto.
    + split.
      * intros [H|(r & P1 & Hr & P2 & Q)]; auto. right. destruct Q as [Q|(m & Q)]; [|exists r, m; auto].
        apply IH in Hr as [->|(s & m & P3 & Hs)]; [elim Q; apply prefix_nil|].
        exists s, m. split; [eapply T; eauto|]. split; auto. intro P4.
        destruct P3 as (x & ->). destruct P4 as (y & E).
        (* r and p are prefixes of the same path, so comparable *)
        assert (Cmp : prefix r p \/ prefix p r).
        { clear - E. revert p E. induction r as [|a r IHr]; intros p E; [left; apply prefix_nil|].
          destruct p as [|b p]; [right; apply prefix_nil|]. cbn in E. injection E as -> E.
          destruct (IHr p E) as [H|H]; [left|right]; apply prefix_cons; auto. }
        destruct Cmp; contradiction.
      * intros [H|(r & m & P1 & Hr & P2)]; auto. right. exists r. split; auto. split; [apply IH; right; exists r, m; split; auto; apply prefix_refl|].
        split; auto. right. eauto.
    + exfalso. apply (N p). apply in_or_app. right. now left.
Qed.
Print Assumptions c46_no_empty_branches.

Example c46_ex : let h := [NAdd [lit "x"] [lit "a"; lit "b"]; NAdd [lit "y"] [lit "a"; lit "c"]; NAdd [lit "z"] [lit "a"; lit "b"]; NErase [lit "a"; lit "b"]] in
  Forall (fun o => Forall (component_ok dot) (op_path o)) h /\ (forall p, ~ In (NGet p) h) /\
  subtree (nrun h) = Ok [([lit "a"; lit "c"], [lit "y"])] /\ node_has (nrun h) [lit "a"; lit "b"] = false.
Proof.
  cbv zeta. split; [repeat constructor; try discriminate; vm_compute; intuition discriminate|]. split; [intros p; cbn; intuition discriminate|].
  split; reflexivity.
Qed.
