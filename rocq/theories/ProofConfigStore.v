(* ProofConfigStore.v - what set, link and relink do to a configuration whose links are
   between whole names. *)
From Coq Require Import Sorting.Sorted.
From Verif Require Import Base Dec ModelConfig SpecConfig ModelConfigStore SpecConfigStore PropConfig PropNode.
Local Open Scope outcome_scope.

Definition pend (n : node) (l k : str) : Prop := pr n [k] [l].
(* only whole names are linked *)
Definition flat (n : node) : Prop :=
  nwf n /\ (forall q, has n q -> length q <= 1) /\ (forall q m, pr n q m -> exists k l, q = [k] /\ m = [l]).

Lemma sub_app p : forall n r, node_sub n (p ++ r) = node_sub (node_sub n p) r.
Proof.
  induction p as [|x p IH]; intros n r; cbn; auto. destruct (afind x (children_of n)); auto.
  destruct r; cbn; auto.
Qed.
Lemma nwf_sub p : forall n, nwf n -> nwf (node_sub n p).
Proof.
  induction p as [|x p IH]; intros n H; cbn; auto. destruct (afind x (children_of n)) eqn:E; [|apply nwf_empty].
  apply IH. eapply nwf_child; eauto.
Qed.
Lemma has_sub p : forall n r, r <> [] -> has (node_sub n p) r -> has n (p ++ r).
Proof.
  induction p as [|x p IH]; intros n r N H; cbn in *; auto. apply has_cons. destruct (afind x (children_of n)) as [c|] eqn:E.
  - exists c. auto.
  - exfalso. apply has_empty in H. contradiction.
Qed.

Definition rootp (l : str) : path := [l].
Lemma flat_subtree n k : flat n -> exists ls, subtree (node_sub n [k]) = Ok (map (fun l => ([], [l])) ls) /\
  NoDup ls /\ forall l, In l ls <-> pend n l k.
Proof.
  intros (W & Hd & Hr). destruct (subtree_spec (node_sub n [k]) [] (nwf_sub [k] n W)) as (l & E & ND & S).
  { intros q x Hx. exfalso. apply has_sub in Hx; [|now destruct q]. apply Hd in Hx. rewrite !app_length in Hx. cbn in Hx. lia. }
  exists (map (fun s => hd [] (snd s)) l).
  assert (F : forall s, In s l -> exists x, s = ([], [x])).
  { intros [q m] Hs. apply S in Hs as (r & -> & P). cbn [app]. assert (P' : pr n ([k] ++ r) m) by (unfold pr; now rewrite sub_app).
    apply Hr in P' as (k' & x & E1 & ->). injection E1 as <- ->. eauto. }
  assert (El : l = map (fun x => ([], [x])) (map (fun s => hd [] (snd s)) l)).
  { rewrite map_map. rewrite <- (map_id l) at 1. apply map_ext_in. intros s Hs. destruct (F s Hs) as (x & ->). reflexivity. }
  split; [unfold subtree; rewrite E; f_equal; exact El|]. split.
  - rewrite El in ND. exact (NoDup_map_inv _ _ ND).
  - intro x. rewrite in_map_iff. split.
    + intros (s & E1 & Hs). destruct (F s Hs) as (y & ->). cbn in E1. subst y. apply S in Hs as (r & E2 & P). cbn in E2. subst r.
      unfold pend, pr. unfold pr in P. exact P.
    + intro P. exists ([], [x]). split; auto. apply S. exists []. split; auto.
Qed.

Lemma flat_empty : flat empty_node.
Proof.
  split; [apply nwf_empty|]. split.
  - intros q H. apply has_empty in H. subst q. cbn. lia.
  - intros q m H. now apply pr_empty in H.
Qed.
Lemma prefix_one (q : path) k : prefix q [k] -> length q <= 1.
Proof. intros (r & E). apply (f_equal (@length str)) in E. rewrite app_length in E. cbn in E. lia. Qed.
Lemma flat_get n k : flat n -> flat (node_get n [k]).
Proof.
  intros (W & Hd & Hr). split; [apply nwf_at; auto|]. split.
  - intros q H. apply has_get in H as [H|H]; auto. eapply prefix_one; eauto.
  - intros q m H. apply pr_get in H. eauto.
Qed.
Lemma flat_add n l k : flat n -> flat (node_add n [l] [k]).
Proof.
  intros (W & Hd & Hr). split; [exact (nwf_step n (NAdd [l] [k]) W)|]. split.
  - intros q H. apply has_add in H as [H|H]; auto. eapply prefix_one; eauto.
  - intros q m H. apply pr_add in H as [H|(-> & ->)]; eauto.
Qed.
Lemma flat_erase n k : flat n -> flat (node_erase n [k]).
Proof.
  intros (W & Hd & Hr). split; [exact (nwf_step n (NErase [k]) W)|]. split.
  - intros q H. apply has_erase in H as [->|(r & (z & ->) & Hh & _)]; [cbn; lia|]. apply Hd in Hh. rewrite app_length in Hh. lia.
  - intros q m H. apply pr_erase in H as (H & _). eauto.
Qed.
Lemma pend_get n k l t : pend (node_get n [k]) l t <-> pend n l t.
Proof. apply pr_get. Qed.
Lemma pend_add n l0 k l t : pend (node_add n [l0] [k]) l t <-> pend n l t \/ (t = k /\ l = l0).
Proof. unfold pend. rewrite pr_add. split; intros [H|(A & B)]; auto; right; split; congruence. Qed.
Lemma pend_erase n k l t : pend (node_erase n [k]) l t <-> pend n l t /\ t <> k.
Proof.
  unfold pend. rewrite pr_erase. split; intros (A & B); split; auto.
  - intros ->. apply B. exists []. reflexivity.
  - intros (r & E). cbn in E. injection E as E _. congruence.
Qed.

(* ---- relations between names ---- *)
Section Rel.
  Variable E : str -> str -> Prop.
  Inductive rch : str -> str -> Prop :=
  | rch0 x : rch x x
  | rch1 x y k : E x y -> rch y k -> rch x k.
  Definition functional := forall x a b, E x a -> E x b -> a = b.
  (* no path of more than j steps below k *)
  Inductive ht : nat -> str -> Prop := ht_i j k : (forall l, E l k -> ht j l) -> ht (S j) k.
End Rel.
Lemma rch_trans E x y z : rch E x y -> rch E y z -> rch E x z.
Proof. induction 1; auto. intro. eapply rch1; eauto. Qed.
Lemma rch_snoc E x l k : rch E x l -> E l k -> rch E x k.
Proof. intros A B. eapply rch_trans; eauto. eapply rch1; eauto. constructor. Qed.
Lemma rch_inv E x k : rch E x k <-> x = k \/ exists l, rch E x l /\ E l k.
Proof.
  split; [|intros [->|(l & A & B)]; [constructor|eapply rch_snoc; eauto]].
  induction 1 as [x|x y k A B [->|(l & C & D)]]; auto; right.
  - exists x. split; auto. constructor.
  - exists l. split; auto. eapply rch1; eauto.
Qed.
Lemma rch_mono (E F : str -> str -> Prop) x k : (forall a b, E a b -> F a b) -> rch E x k -> rch F x k.
Proof. intros M. induction 1; econstructor; eauto. Qed.
Lemma ht_mono (E F : str -> str -> Prop) j : (forall a b, F a b -> E a b) -> forall k, ht E j k -> ht F j k.
Proof.
  intro M. induction j as [|j IH]; intros k H; inversion H; subst. constructor. auto.
Qed.
Lemma ht_up E : forall j i k, ht E j k -> j <= i -> ht E i k.
Proof.
  induction j as [|j IH]; intros i k H L; inversion H; subst. destruct i as [|i]; [lia|]. constructor. intros l A. apply IH; auto. lia.
Qed.
Lemma ht_rch E : forall j k x, ht E j k -> rch E x k -> exists i, i <= j /\ ht E i x.
Proof.
  intros j k x H R. revert j H. induction R as [x|x y k A B IH]; intros j H; [exists j; auto|].
  destruct (IH j H) as (i & Li & Hi). inversion Hi; subst. exists j0. split; [lia|auto].
Qed.
Lemma ht_acyclic E : forall j k x, ht E j k -> E x k -> ~ rch E k x.
Proof.
  induction j as [|j IH]; intros k x H A R; inversion H; subst. specialize (H1 x A).
  destruct (proj1 (rch_inv E k x) R) as [->|(l & R1 & A1)].
  - exact (IH x x H1 A (rch0 _ _)).
  - exact (IH x l H1 A1 (rch1 _ _ _ _ A R1)).
Qed.
Lemma rch_line E x a b : functional E -> rch E x a -> rch E x b -> rch E a b \/ rch E b a.
Proof.
  intros F R. revert b. induction R as [x|x y a A B IH]; intros b Rb; [now left|].
  inversion Rb as [|x' y' k' A' B']; subst; [right; eapply rch1; eauto|].
  rewrite (F _ _ _ A' A) in B'. auto.
Qed.
Lemma rch_disjoint E k x l1 l2 j : functional E -> ht E j k -> E l1 k -> E l2 k -> rch E x l1 -> rch E x l2 -> l1 = l2.
Proof.
  intros F H A1 A2 R1 R2.
  assert (G : forall a b, E a k -> E b k -> rch E a b -> a = b).
  { intros a b Aa Ab R. inversion R as [|x' y' k' A' B']; subst; auto. rewrite (F _ _ _ A' Aa) in B'.
    exfalso. exact (ht_acyclic E j k b H Ab B'). }
  destruct (rch_line E x l1 l2 F R1 R2) as [R|R]; [auto|symmetry; auto].
Qed.

(* ---- set ---- *)
Section Set_.
  Context {V M : Type} (L : layer V M).
  Implicit Types (c : cfg V M) (v : V).
  Definition P c := pend (clinks c).
  Definition fine c := flat (clinks c) /\ NoDup (akeys (ckeys c)).

  (* what setting all of ls to v does *)
  Definition after (c c' : cfg V M) (U : str -> Prop) (v : V) : Prop :=
    fine c' /\ cmem c' = cmem c /\
    (forall x w, afind x (ckeys c') = Some w <-> (U x /\ w = v) \/ afind x (ckeys c) = Some w) /\
    (forall l t, P c' l t <-> P c l t /\ ~ U t).

  Definition sets f v (ls : list str) c :=
    fold_left (fun acc sub => do x <- acc; cset L f x (snd sub) v) (map (fun l => ([] : path, [l])) ls) (Ok c).

  Lemma sets_ok f v j : (forall k c, fine c -> functional (P c) -> ht (P c) j k -> (forall x, rch (P c) x k -> afind x (ckeys c) = None) ->
      exists c', cset L f c [k] v = Ok c' /\ after c c' (fun x => rch (P c) x k) v) ->
    forall ls c, fine c -> functional (P c) -> NoDup ls -> (forall l, In l ls -> ht (P c) j l) ->
      (forall l x, In l ls -> rch (P c) x l -> afind x (ckeys c) = None) ->
      (forall l1 l2 x, In l1 ls -> In l2 ls -> rch (P c) x l1 -> rch (P c) x l2 -> l1 = l2) ->
      exists c', sets f v ls c = Ok c' /\ after c c' (fun x => exists l, In l ls /\ rch (P c) x l) v.
  Proof.
    intros IH ls. induction ls as [|l1 ls IHl]; intros c Fi Fu ND Hh Hu Hd.
    - exists c. split; [reflexivity|]. split; [exact Fi|]. split; [reflexivity|]. split.
      + intros x w. split; [auto|]. intros [((l & [] & _) & _)|H]; auto.
      + intros l t. split; [|tauto]. intro H. split; auto. intros (l0 & [] & _).
    - unfold sets. cbn [map fold_left snd bind].
      destruct (IH l1 c Fi Fu (Hh l1 (or_introl eq_refl)) (fun x => Hu l1 x (or_introl eq_refl))) as (c1 & E1 & Fi1 & M1 & K1 & P1).
      rewrite E1. inversion ND as [|? ? Nl ND']; subst.
      assert (Sub : forall a b, P c1 a b -> P c a b) by (intros a b H; apply P1 in H; tauto).
      assert (Rc : forall l x, In l ls -> (rch (P c1) x l <-> rch (P c) x l)).
      { intros l x Hl. split; [apply rch_mono, Sub|]. intro R. induction R as [x|x y k A B IHR]; [constructor|].
        eapply rch1; [|now apply IHR]. apply P1. split; auto. intro R1.
        pose proof (Hd l1 k y (or_introl eq_refl) (or_intror Hl) R1 B) as ->. contradiction. }
      destruct (IHl c1 Fi1) as (c2 & E2 & Fi2 & M2 & K2 & P2); auto.
      + intros x a b A B. apply Sub in A, B. eapply Fu; eauto.
      + intros l Hl. eapply ht_mono; [exact Sub|]. apply Hh. now right.
      + intros l x Hl R. apply Rc in R; auto. destruct (afind x (ckeys c1)) as [w|] eqn:Ew; auto. exfalso.
        apply K1 in Ew as [(R1 & _)|Ew].
        * pose proof (Hd l1 l x (or_introl eq_refl) (or_intror Hl) R1 R) as ->. contradiction.
        * rewrite (Hu l x (or_intror Hl) R) in Ew. discriminate.
      + intros a b x Ha Hb Ra Rb. apply Rc in Ra; auto. apply Rc in Rb; auto. eapply Hd; eauto; now right.
      + exists c2. split; [exact E2|]. split; [exact Fi2|]. split; [congruence|]. split.
        * intros x w. rewrite K2, K1. split.
          -- intros [((l & Hl & R) & ->)|[(R & ->)|H]]; auto; left; split; auto; [exists l|exists l1]; split; auto; [now right|apply Rc; auto|now left].
          -- intros [((l & [<-|Hl] & R) & ->)|H]; auto. left. split; auto. exists l. split; auto. apply Rc; auto.
        * intros l t. rewrite P2, P1. split.
          -- intros ((A & B) & C). split; auto. intros (l0 & [<-|Hl] & R); [contradiction|]. apply C. exists l0. split; auto. apply Rc; auto.
          -- intros (A & B). split; [split; auto|].
             ++ intro R. apply B. exists l1. split; auto. now left.
             ++ intros (l0 & Hl & R). apply B. exists l0. split; [now right|apply Rc; auto].
  Qed.

  Lemma cset_ok : forall j f k c v, j <= f -> fine c -> functional (P c) -> ht (P c) j k -> (forall x, rch (P c) x k -> afind x (ckeys c) = None) ->
    exists c', cset L f c [k] v = Ok c' /\ after c c' (fun x => rch (P c) x k) v.
  Proof.
    induction j as [|j IH]; intros f k c v Lf Fi Fu H U; [inversion H|]. destruct f as [|f]; [lia|]. cbn [cset].
    rewrite (U k (rch0 _ _)). cbn [bind ckeys clinks cmem].
    set (c1 := Cfg (aset k v (ckeys c)) (node_get (clinks c) [k]) (cmem c)).
    assert (P1 : forall a b, P c1 a b <-> P c a b) by (intros a b; apply pend_get).
    assert (Fi1 : fine c1).
    { destruct Fi as (A & B). split; [now apply flat_get|]. cbn. now apply NoDup_akeys_aset. }
    destruct (flat_subtree (node_get (clinks c) [k]) k (proj1 Fi1)) as (ls & Es & ND & Il). rewrite Es. cbn [bind].
    assert (Il' : forall l, In l ls <-> P c l k) by (intro l; rewrite Il; apply P1).
    assert (R1 : forall x y, rch (P c1) x y <-> rch (P c) x y) by (intros x y; split; apply rch_mono; intros; now apply P1).
    assert (Ac : forall l x, P c l k -> rch (P c) x l -> x <> k).
    { intros l x A R ->. exact (ht_acyclic _ _ _ _ H A R). }
    destruct (sets_ok f v j) with (ls := ls) (c := c1) as (c2 & E2 & Fi2 & M2 & K2 & P2); auto.
    - intros. apply IH; auto. lia.
    - intros x a b A B. apply P1 in A, B. eauto.
    - intros l Hl. apply Il' in Hl. inversion H; subst. eapply ht_mono; [|eauto]. intros; now apply P1.
    - intros l x Hl R. apply R1 in R. apply Il' in Hl. cbn. rewrite afind_aset_other by eauto. apply U. eapply rch_snoc; eauto.
    - intros a b x Ha Hb Ra Rb. apply R1 in Ra, Rb. apply Il' in Ha, Hb. eapply rch_disjoint; eauto.
    - match goal with |- context [fold_left ?a ?b ?d] => replace (fold_left a b d) with (Ok c2) by (symmetry; exact E2) end. cbn [bind]. eexists. split; [reflexivity|]. split; [|split; [|split]].
      + split; cbn; [apply flat_erase, (proj1 Fi2)|exact (proj2 Fi2)].
      + cbn. exact M2.
      + intros x w. cbn [ckeys]. rewrite K2. cbn [ckeys c1]. split.
        * intros [((l & Hl & R) & ->)|Hx].
          -- left. split; auto. apply R1 in R. apply Il' in Hl. eapply rch_snoc; eauto.
          -- destruct (str_dec x k) as [->|N].
             ++ rewrite afind_aset_same in Hx. injection Hx as <-. left. split; auto. constructor.
             ++ rewrite afind_aset_other in Hx by auto. auto.
        * intros [(R & ->)|Hx].
          -- apply rch_inv in R as [->|(l & R & A)].
             ++ right. apply afind_aset_same.
             ++ left. split; auto. exists l. split; [now apply Il'|now apply R1].
          -- right. rewrite afind_aset_other; auto. intros ->. rewrite (U k (rch0 _ _)) in Hx. discriminate.
      + intros l t. unfold P at 1. cbn [clinks]. rewrite pend_erase. change (pend (clinks c2) l t) with (P c2 l t). rewrite P2, P1. split.
        * intros ((A & B) & N). split; auto. intro R. apply rch_inv in R as [->|(l0 & R & A0)]; auto.
          apply B. exists l0. split; [now apply Il'|now apply R1].
        * intros (A & B). split; [split; auto|].
          -- intros (l0 & Hl & R). apply B. apply R1 in R. apply Il' in Hl. eapply rch_snoc; eauto.
          -- intros ->. apply B. constructor.
  Qed.
End Set_.
