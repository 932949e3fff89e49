(* ProofJsonL1.v - proofs: memory with destroyed objects. *)
From Verif Require Import Base Dec ModelJson ModelJsonT ModelJsonH ProofJsonH1 ModelJsonL SpecJsonL.
From Coq Require Import Lia.
Local Open Scope nat_scope.

(* ---- put ---- *)
Lemma put_length m a c : length (put m a c) = length m.
Proof. revert a. induction m as [|x m IH]; intros [|a]; cbn; auto. Qed.
Lemma put_same m a c : a < length m -> nth_error (put m a c) a = Some c.
Proof. revert a. induction m as [|x m IH]; intros [|a] L; cbn in *; try lia; auto. apply IH. lia. Qed.
Lemma put_other m a b c : b <> a -> nth_error (put m a c) b = nth_error m b.
Proof. revert a b. induction m as [|x m IH]; intros [|a] [|b] L; cbn; auto; try congruence; apply IH; congruence. Qed.
Lemma put_cases m a c x d : nth_error (put m a c) x = Some d -> (x = a /\ d = c) \/ (x <> a /\ nth_error m x = Some d).
Proof.
  intro H. destruct (Nat.eq_dec x a) as [->|N]; [|right; split; auto; now rewrite put_other in H by auto].
  left. split; auto. assert (L : a < length m) by (rewrite <- (put_length m a c); eapply nth_some_lt; eauto).
  rewrite put_same in H by auto. congruence.
Qed.

(* ---- pointers of parts ---- *)
Lemma in_concat_pairs k y (l : list (str * lval)) : In (k, y) (concat (map (fun kv => ptrs (snd kv)) l)) <-> exists n h, In (n, h) l /\ In (k, y) (ptrs h).
Proof.
  rewrite in_concat. split.
  - intros (x & I1 & I2). apply in_map_iff in I1 as ([n h] & <- & I1). eauto.
  - intros (n & h & I1 & I2). exists (ptrs h). split; auto. apply in_map_iff. exists (n, h). auto.
Qed.
Lemma in_concat_list k y (l : list lval) : In (k, y) (concat (map ptrs l)) <-> exists h, In h l /\ In (k, y) (ptrs h).
Proof.
  rewrite in_concat. split.
  - intros (x & I1 & I2). apply in_map_iff in I1 as (h & <- & I1). eauto.
  - intros (h & I1 & I2). exists (ptrs h). split; auto. apply in_map_iff. exists h. auto.
Qed.
Lemma afind_in {V} k (l : list (str * V)) v : afind k l = Some v -> In (k, v) l.
Proof. apply afind_In. Qed.
Lemma aset_in {V} k (v : V) l n w : In (n, w) (aset k v l) -> (w = v) \/ In (n, w) l.
Proof.
  induction l as [|[k' v'] l IH]; cbn.
  - intros [[= _ <-]|[]]. auto.
  - destruct (str_eqb k k'); cbn; intros [H|H]; auto; [injection H; auto|]. destruct (IH H); auto.
Qed.
Lemma ptrs_members k y h : In (k, y) (concat (map (fun kv => ptrs (snd kv)) (lmembers h))) -> In (k, y) (ptrs h).
Proof. destruct h; cbn [lmembers map concat]; try contradiction. auto. Qed.
Lemma ptrs_lget p : forall h k y, In (k, y) (ptrs (vget h p)) -> In (k, y) (ptrs h).
Proof.
  induction p as [|n p IH]; intros h k y H; auto. cbn [vget] in H.
  destruct (afind n (lmembers h)) as [x|] eqn:E; [|destruct H]. apply IH in H. apply ptrs_members, in_concat_pairs.
  exists n, x. split; auto. now apply afind_in.
Qed.
Lemma ptrs_lset p : forall h x k y, In (k, y) (ptrs (vset h p x)) -> In (k, y) (ptrs h) \/ In (k, y) (ptrs x).
Proof.
  induction p as [|n p IH]; intros h x k y H; auto. cbn [vset ptrs] in H. apply in_concat_pairs in H as (n' & w & I1 & I2).
  apply aset_in in I1 as [->|I1].
  - apply IH in I2 as [I2|I2]; auto. left. destruct (afind n (lmembers h)) as [z|] eqn:E; [|destruct I2].
    apply ptrs_members, in_concat_pairs. exists n, z. split; auto. now apply afind_in.
  - left. apply ptrs_members, in_concat_pairs. eauto.
Qed.
Lemma ptrs_llist h k y : In (k, y) (concat (map ptrs (llist h))) -> In (k, y) (ptrs h).
Proof. destruct h; cbn; try contradiction. auto. Qed.
Lemma ptrs_push h x k y : In (k, y) (ptrs (LL (llist h ++ [x]))) -> In (k, y) (ptrs h) \/ In (k, y) (ptrs x).
Proof.
  cbn [ptrs]. rewrite map_app, concat_app. cbn [map concat]. rewrite app_nil_r, in_app_iff.
  intros [H|H]; auto. left. now apply ptrs_llist.
Qed.
Lemma ptrs_lpairs h k y : In (k, y) (concat (map (fun kv => ptrs (snd kv)) (lpairs h))) -> In (k, y) (ptrs h).
Proof. destruct h; cbn; try contradiction. auto. Qed.
Lemma lmap_set_in n x l n' w : In (n', w) (lmap_set n x l) -> w = x \/ In (n', w) l.
Proof.
  induction l as [|[k v] l IH]; cbn.
  - intros [[= _ <-]|[]]. auto.
  - destruct (str_eqb n k); [|destruct (str_ltb n k)]; cbn; intros [H|H]; auto; try (injection H; auto; fail).
    destruct (IH H); auto.
Qed.
Lemma ptrs_assign h n x k y : In (k, y) (ptrs (LM (lmap_set n x (lpairs h)))) -> In (k, y) (ptrs h) \/ In (k, y) (ptrs x).
Proof.
  cbn [ptrs]. intros H. apply in_concat_pairs in H as (n' & w & I1 & I2). apply lmap_set_in in I1 as [->|I1]; auto.
  left. apply ptrs_lpairs, in_concat_pairs. eauto.
Qed.
Lemma in_owned h y : In y (owned h) <-> In (true, y) (ptrs h).
Proof.
  unfold owned. rewrite in_map_iff. split.
  - intros ([k z] & <- & I1). apply filter_In in I1 as [I1 I2]. cbn in I2. now subst k.
  - intro H. exists (true, y). split; auto. apply filter_In. auto.
Qed.
Lemma in_all_owned m y : In y (all_owned m) <-> pointer m true y.
Proof.
  unfold all_owned. rewrite in_concat. split.
  - intros (l & I1 & I2). apply in_map_iff in I1 as (c & <- & I1). destruct c as [h|]; [|destruct I2]. cbn in I2.
    apply In_nth_error in I1 as [x I1]. exists x, h. split; auto. now apply in_owned.
  - intros (x & h & I1 & I2). exists (owned h). split; [|now apply in_owned]. apply in_map_iff. exists (Some h). split; auto.
    eapply nth_error_In; eauto.
Qed.
Lemma existsb_in b l : existsb (Nat.eqb b) l = true <-> In b l.
Proof.
  rewrite existsb_exists. split.
  - intros (x & I1 & I2). apply Nat.eqb_eq in I2. now subst.
  - intro H. exists b. split; auto. apply Nat.eqb_refl.
Qed.

(* ---- erasing ---- *)
Lemma erase_find n (l : list (str * lval)) : afind n (map (fun kv => (fst kv, erase (snd kv))) l) = option_map erase (afind n l).
Proof. induction l as [|[k v] l IH]; cbn; auto. destruct (str_eqb n k); auto. Qed.
Lemma erase_members h : members (erase h) = map (fun kv => (fst kv, erase (snd kv))) (lmembers h).
Proof. destruct h; reflexivity. Qed.
Lemma erase_get p : forall h, erase (vget h p) = hget (erase h) p.
Proof.
  induction p as [|n p IH]; intro h; auto. cbn [vget hget]. rewrite erase_members, erase_find.
  destruct (afind n (lmembers h)); cbn [option_map]; auto.
Qed.
Lemma erase_aset n (x : lval) l : map (fun kv => (fst kv, erase (snd kv))) (aset n x l) = aset n (erase x) (map (fun kv => (fst kv, erase (snd kv))) l).
Proof. induction l as [|[k v] l IH]; cbn; auto. destruct (str_eqb n k); cbn; auto. now rewrite IH. Qed.
Lemma erase_set p x : forall h, erase (vset h p x) = hset (erase h) p (erase x).
Proof.
  induction p as [|n p IH]; intro h; auto. cbn [vset hset erase]. rewrite erase_aset, IH, erase_members, erase_find.
  destruct (afind n (lmembers h)); reflexivity.
Qed.
Lemma erase_list h : hlist (erase h) = map erase (llist h).
Proof. destruct h; reflexivity. Qed.
Lemma erase_pairs h : hpairs (erase h) = map (fun kv => (fst kv, erase (snd kv))) (lpairs h).
Proof. destruct h; reflexivity. Qed.
Lemma erase_map_set n (x : lval) l : map (fun kv => (fst kv, erase (snd kv))) (lmap_set n x l) = hmap_set n (erase x) (map (fun kv => (fst kv, erase (snd kv))) l).
Proof.
  induction l as [|[k v] l IH]; cbn; auto. destruct (str_eqb n k); cbn; auto. destruct (str_ltb n k); cbn; auto. now rewrite IH.
Qed.

(* ---- building ---- *)
Fixpoint lbuild_l (l : list val) (m : lstore) : list lval * lstore :=
  match l with
  | [] => ([], m)
  | x :: l' => let (h, m1) := lbuild x m in let (hs, m2) := lbuild_l l' m1 in (h :: hs, m2)
  end.
Fixpoint lbuild_p (l : list (str * val)) (m : lstore) : list (str * lval) * lstore :=
  match l with
  | [] => ([], m)
  | (k, x) :: l' => let (h, m1) := lbuild x m in let (hs, m2) := lbuild_p l' m1 in ((k, h) :: hs, m2)
  end.
Lemma lbuild_VList l m : lbuild (VList l) m = let (hs, m1) := lbuild_l l m in (LL hs, m1). Proof. reflexivity. Qed.
Lemma lbuild_VMap l m : lbuild (VMap l) m = let (hs, m1) := lbuild_p l m in (LM hs, m1). Proof. reflexivity. Qed.
Lemma lbuild_VObj l m : lbuild (VObj l) m = let (hs, m1) := lbuild_p l m in (LO hs, m1). Proof. reflexivity. Qed.

(* the objects from lo on: alive, and their pointers are smart and lead to older ones of them *)
Definition young (lo : nat) (n : list lval) : Prop :=
  forall i h k y, nth_error n i = Some h -> In (k, y) (ptrs h) -> k = true /\ lo <= y < lo + i.
Definition into (lo hi : nat) (ps : list (bool * nat)) : Prop := forall k y, In (k, y) ps -> k = true /\ lo <= y < hi.
Lemma young_app lo n n' : young lo n -> young (lo + length n) n' -> young lo (n ++ n').
Proof.
  intros H H' i h k y E I1. destruct (Nat.lt_ge_cases i (length n)) as [L|L].
  - rewrite nth_error_app1 in E by auto. eapply H; eauto.
  - rewrite nth_error_app2 in E by auto. destruct (H' _ _ _ _ E I1). split; auto. lia.
Qed.
Lemma into_weak lo lo' hi hi' ps : into lo hi ps -> lo' <= lo -> hi <= hi' -> into lo' hi' ps.
Proof. intros H L L' k y I1. destruct (H k y I1). split; auto. lia. Qed.
Lemma young_snoc lo n h : young lo n -> into lo (lo + length n) (ptrs h) -> young lo (n ++ [h]).
Proof.
  intros H I1 i h' k y E I2. destruct (Nat.lt_ge_cases i (length n)) as [L|L].
  - rewrite nth_error_app1 in E by auto. eapply H; eauto.
  - rewrite nth_error_app2 in E by auto. destruct (i - length n) as [|j] eqn:Ej; [|destruct j; discriminate].
    cbn in E. injection E as <-. destruct (I1 k y I2). split; auto. lia.
Qed.

Definition buildsl {X Y} (pt : X -> list (bool * nat)) (er : X -> Y) (b : lstore -> X * lstore) (bh : store -> Y * store) : Prop :=
  forall m, exists h n, b m = (h, m ++ map Some n) /\ young (length m) n /\ into (length m) (length m + length n) (pt h) /\
    forall mh, length mh = length m -> bh mh = (er h, mh ++ map erase n).

Section ValInd.
Variable P : val -> Prop.
Hypothesis Hplain : forall v, (match v with VPtr _ | VList _ | VMap _ | VObj _ => False | _ => True end) -> P v.
Hypothesis Hnull : P (VPtr None).
Hypothesis Hptr : forall p, P p -> P (VPtr (Some p)).
Hypothesis Hlist : forall l, Forall P l -> P (VList l).
Hypothesis Hmap : forall l, Forall (fun kv => P (snd kv)) l -> P (VMap l).
Hypothesis Hobj : forall l, Forall (fun kv => P (snd kv)) l -> P (VObj l).
Fixpoint val_full (v : val) : P v :=
  match v with
  | VPtr None => Hnull
  | VPtr (Some p) => Hptr p (val_full p)
  | VList l => Hlist l ((fix go l : Forall P l := match l with [] => Forall_nil _ | x :: l' => Forall_cons _ (val_full x) (go l') end) l)
  | VMap l => Hmap l ((fix go l : Forall (fun kv => P (snd kv)) l := match l with [] => Forall_nil _ | x :: l' => Forall_cons _ (val_full (snd x)) (go l') end) l)
  | VObj l => Hobj l ((fix go l : Forall (fun kv => P (snd kv)) l := match l with [] => Forall_nil _ | x :: l' => Forall_cons _ (val_full (snd x)) (go l') end) l)
  | VVoid => Hplain VVoid Logic.I
  | VBool b => Hplain (VBool b) Logic.I
  | VInt z => Hplain (VInt z) Logic.I
  | VFloat x => Hplain (VFloat x) Logic.I
  | VStr s => Hplain (VStr s) Logic.I
  end.
End ValInd.

Lemma map_some_length {A} (n : list A) : length (map Some n) = length n. Proof. apply map_length. Qed.
Lemma lbuild_spec v : buildsl ptrs erase (lbuild v) (build v).
Proof.
  induction v as [v Hv| |p IH|l IH|l IH|l IH] using val_full.
  - intro m. exists (LV v), []. destruct v; try contradiction; cbn; rewrite app_nil_r; (split; [reflexivity|]);
      (split; [intros [|i] h k y E; discriminate|]); (split; [intros k y []|]); intros mh L; now rewrite app_nil_r.
  - intro m. exists (LP true None), []. cbn. rewrite app_nil_r. split; auto. split; [intros [|i] h k y E; discriminate|]. split; [intros k y []|].
    intros mh L. now rewrite app_nil_r.
  - intro m. destruct (IH m) as (h & n & E & Y & I1 & Eh). exists (LP true (Some (length m + length n))), (n ++ [h]). cbn [lbuild build]. rewrite E.
    split; [rewrite app_length, map_length, map_app, <- app_assoc; reflexivity|].
    split; [now apply young_snoc|]. split.
    + intros k y [[= <- <-]|[]]. split; auto. rewrite app_length. cbn. lia.
    + intros mh L. rewrite (Eh mh L). cbn [erase]. rewrite app_length, map_length, L, map_app, <- app_assoc. reflexivity.
  - assert (G : buildsl (fun hs => concat (map ptrs hs)) (map erase) (lbuild_l l) (build_l l)).
    { induction IH as [|x l Hx Hl IHl]; intro m.
      - exists [], []. cbn. rewrite app_nil_r. split; auto. split; [intros [|i] h k y E; discriminate|]. split; [intros k y []|]. intros mh L. now rewrite app_nil_r.
      - destruct (Hx m) as (h & n & E & Y & I1 & Eh). destruct (IHl (m ++ map Some n)) as (hs & n' & E' & Y' & I1' & Eh').
        rewrite app_length, map_length in *. exists (h :: hs), (n ++ n'). cbn [lbuild_l build_l]. rewrite E, E'.
        split; [rewrite map_app, app_assoc; reflexivity|]. split; [now apply young_app|]. split.
        + intros k y. cbn [map concat]. rewrite in_app_iff, app_length. intros [I2|I2].
          * destruct (I1 k y I2). split; auto. lia.
          * destruct (I1' k y I2). split; auto. lia.
        + intros mh L. rewrite (Eh mh L). rewrite (Eh' (mh ++ map erase n)) by (rewrite app_length, map_length; lia).
          rewrite map_app, app_assoc. reflexivity. }
    intro m. destruct (G m) as (hs & n & E & Y & I1 & Eh). exists (LL hs), n. rewrite lbuild_VList, E. split; auto. split; auto. split; auto.
    intros mh L. rewrite build_VList, (Eh mh L). reflexivity.
  - assert (G : buildsl (fun hs => concat (map (fun kv => ptrs (snd kv)) hs)) (map (fun kv => (fst kv, erase (snd kv)))) (lbuild_p l) (build_p l)).
    { induction IH as [|[kx x] l Hx Hl IHl]; intro m.
      - exists [], []. cbn. rewrite app_nil_r. split; auto. split; [intros [|i] h k y E; discriminate|]. split; [intros k y []|]. intros mh L. now rewrite app_nil_r.
      - destruct (Hx m) as (h & n & E & Y & I1 & Eh). destruct (IHl (m ++ map Some n)) as (hs & n' & E' & Y' & I1' & Eh').
        rewrite app_length, map_length in *. cbn [snd] in *. exists ((kx, h) :: hs), (n ++ n'). cbn [lbuild_p build_p]. rewrite E, E'.
        split; [rewrite map_app, app_assoc; reflexivity|]. split; [now apply young_app|]. split.
        + intros k y. cbn [map concat snd]. rewrite in_app_iff, app_length. intros [I2|I2].
          * destruct (I1 k y I2). split; auto. lia.
          * destruct (I1' k y I2). split; auto. lia.
        + intros mh L. rewrite (Eh mh L). rewrite (Eh' (mh ++ map erase n)) by (rewrite app_length, map_length; lia).
          rewrite map_app, app_assoc. reflexivity. }
    intro m. destruct (G m) as (hs & n & E & Y & I1 & Eh). exists (LM hs), n. rewrite lbuild_VMap, E. split; auto. split; auto. split; auto.
    intros mh L. rewrite build_VMap, (Eh mh L). reflexivity.
  - assert (G : buildsl (fun hs => concat (map (fun kv => ptrs (snd kv)) hs)) (map (fun kv => (fst kv, erase (snd kv)))) (lbuild_p l) (build_p l)).
    { induction IH as [|[kx x] l Hx Hl IHl]; intro m.
      - exists [], []. cbn. rewrite app_nil_r. split; auto. split; [intros [|i] h k y E; discriminate|]. split; [intros k y []|]. intros mh L. now rewrite app_nil_r.
      - destruct (Hx m) as (h & n & E & Y & I1 & Eh). destruct (IHl (m ++ map Some n)) as (hs & n' & E' & Y' & I1' & Eh').
        rewrite app_length, map_length in *. cbn [snd] in *. exists ((kx, h) :: hs), (n ++ n'). cbn [lbuild_p build_p]. rewrite E, E'.
        split; [rewrite map_app, app_assoc; reflexivity|]. split; [now apply young_app|]. split.
        + intros k y. cbn [map concat snd]. rewrite in_app_iff, app_length. intros [I2|I2].
          * destruct (I1 k y I2). split; auto. lia.
          * destruct (I1' k y I2). split; auto. lia.
        + intros mh L. rewrite (Eh mh L). rewrite (Eh' (mh ++ map erase n)) by (rewrite app_length, map_length; lia).
          rewrite map_app, app_assoc. reflexivity. }
    intro m. destruct (G m) as (hs & n & E & Y & I1 & Eh). exists (LO hs), n. rewrite lbuild_VObj, E. split; auto. split; auto. split; auto.
    intros mh L. rewrite build_VObj, (Eh mh L). reflexivity.
Qed.
(* a new object: n are all the objects made, the last is the one asked for *)
Lemma lnew_spec e t m : exists n, lnew e t m = (length m + length n - 1, m ++ map Some n) /\ 1 <= length n /\ young (length m) n /\
  forall mh, length mh = length m -> new_object e t mh = (length m + length n - 1, mh ++ map erase n).
Proof.
  unfold lnew, new_object. destruct (lbuild_spec (dval e t) m) as (h & n & E & Y & I1 & Eh). exists (n ++ [h]). rewrite E.
  rewrite !app_length, map_length, map_app, app_assoc. cbn [length map].
  split; [f_equal; lia|]. split; [lia|]. split; [now apply young_snoc|].
  intros mh L. rewrite (Eh mh L), app_length, map_length, map_app, app_assoc, L. cbn [map]. f_equal. lia.
Qed.
