(* ProofJsonH1.v - memory, building and printing of object graphs *)
From Coq Require String. Import String.StringSyntax.
From Verif Require Import Base Dec ModelJson ModelJsonW ModelJsonT ProofCodec4 ProofUMap ModelJsonH SpecJsonH.
Local Open Scope outcome_scope.

(* ---- memory ---- *)
Lemma put_cell_length m a h : length (put_cell m a h) = length m.
Proof. revert a. induction m as [|x m IH]; intros [|a]; cbn; auto. Qed.
Lemma put_cell_same m a h : a < length m -> nth_error (put_cell m a h) a = Some h.
Proof. revert a. induction m as [|x m IH]; intros [|a] H; cbn in *; try lia; auto. apply IH. lia. Qed.
Lemma put_cell_other m a b h : b <> a -> nth_error (put_cell m a h) b = nth_error m b.
Proof. revert a b. induction m as [|x m IH]; intros [|a] [|b] H; cbn; auto; try congruence. Qed.
Lemma nth_some_lt {A} (m : list A) a h : nth_error m a = Some h -> a < length m.
Proof. intro H. apply nth_error_Some. congruence. Qed.
Lemma cell_nth m a : a < length m -> nth_error m a = Some (cell m a).
Proof. intro H. unfold cell. destruct (nth_error m a) eqn:E; auto. apply nth_error_None in E. lia. Qed.
Lemma nth_cell m a h : nth_error m a = Some h -> cell m a = h.
Proof. intro H. unfold cell. now rewrite H. Qed.
Lemma nth_snoc {A} (m : list A) h : nth_error (m ++ [h]) (length m) = Some h.
Proof. induction m; cbn; auto. Qed.
Lemma nth_app {A} (m n : list A) a : a < length m -> nth_error (m ++ n) a = nth_error m a.
Proof. revert a. induction m as [|x m IH]; intros [|a] H; cbn in *; try lia; auto. apply IH. lia. Qed.

(* ---- members of members ---- *)
Lemma str_eqb_sound a b : str_eqb a b = true -> a = b.
Proof. intro H. destruct (str_eqb_spec a b); congruence. Qed.
Lemma aset_self {V} k (v : V) l : afind k l = Some v -> aset k v l = l.
Proof.
  induction l as [|[k' v'] l IH]; cbn; [discriminate|]. destruct (str_eqb k k') eqn:E.
  - intros [= ->]. apply str_eqb_sound in E. now subst.
  - intro H. now rewrite IH.
Qed.
Lemma aset_aset {V} k (v v' : V) l : aset k v (aset k v' l) = aset k v l.
Proof.
  induction l as [|[k' x] l IH]; cbn.
  - now rewrite str_eqb_refl.
  - destruct (str_eqb k k') eqn:E; cbn; [now rewrite str_eqb_refl|]. rewrite E. now rewrite IH.
Qed.
Fixpoint at_path (h : hval) (p : list str) : Prop :=
  match p with
  | [] => True
  | k :: p' => exists fs y, h = HO fs /\ afind k fs = Some y /\ at_path y p'
  end.
Lemma hget_hset h p x : hget (hset h p x) p = x.
Proof. revert h. induction p as [|k p IH]; intro h; cbn; auto. now rewrite afind_aset_same. Qed.
Lemma hset_hset h p x y : hset (hset h p x) p y = hset h p y.
Proof. revert h. induction p as [|k p IH]; intro h; cbn; auto. now rewrite afind_aset_same, IH, aset_aset. Qed.
Lemma hset_hget h p : at_path h p -> hset h p (hget h p) = h.
Proof.
  revert h. induction p as [|k p IH]; intro h; cbn; auto. intros (fs & y & -> & E & H). cbn. rewrite E, (IH y H). f_equal.
  now apply aset_self.
Qed.
Lemma at_path_hset h p x : at_path h p -> at_path (hset h p x) p.
Proof.
  revert h. induction p as [|k p IH]; intro h; cbn; auto. intros (fs & y & -> & E & H). cbn. rewrite E.
  exists (aset k (hset y p x) fs), (hset y p x). rewrite afind_aset_same. auto.
Qed.
Lemma at_path_snoc h p k : at_path h p -> (exists fs y, hget h p = HO fs /\ afind k fs = Some y) -> at_path h (p ++ [k]).
Proof.
  revert h. induction p as [|j p IH]; intro h; cbn.
  - intros _ (fs & y & E & A). exists fs, y. auto.
  - intros (fs & y & -> & E & H) K. cbn in K. rewrite E in K. exists fs, y. auto.
Qed.
Lemma hget_snoc h p k : hget h (p ++ [k]) = hget (hget h p) [k].
Proof. revert h. induction p as [|j p IH]; intro h; [reflexivity|]. cbn [app hget]. destruct (afind j (members h)) as [y|]; [apply IH|]. reflexivity. Qed.
Lemma hset_snoc h p k x : at_path h p -> hset h (p ++ [k]) x = hset h p (hset (hget h p) [k] x).
Proof.
  revert h. induction p as [|j p IH]; intro h; [reflexivity|]. cbn [app hset hget at_path]. intros (fs & y & -> & E & H). cbn [members].
  rewrite E. now rewrite IH.
Qed.

(* ---- what is seen depends on the objects met only ---- *)
Lemma sees_frame_all e m m' :
  (forall t h v F, sees e m t h v F -> (forall b, In b F -> nth_error m' b = nth_error m b) -> sees e m' t h v F) /\
  (forall i hs l F, sees_list e m i hs l F -> (forall b, In b F -> nth_error m' b = nth_error m b) -> sees_list e m' i hs l F) /\
  (forall T hs l F, sees_pairs e m T hs l F -> (forall b, In b F -> nth_error m' b = nth_error m b) -> sees_pairs e m' T hs l F).
Proof.
  apply sees_comb.
  - intros. eapply se_scalar; eauto.
  - intros. eapply se_null; eauto.
  - intros t sm i a h v F E1 E2 S0 IH K. eapply se_ptr; eauto; [rewrite K; [exact E2|now left]|]. apply IH. intros b B. apply K. now right.
  - intros. eapply se_list; eauto.
  - intros. eapply se_map; eauto.
  - intros. eapply se_obj; eauto.
  - intros. constructor.
  - intros i h v F hs l F' S0 IH S1 IH1 K. constructor; [apply IH|apply IH1]; intros b B; apply K; apply in_or_app; auto.
  - intros. constructor.
  - intros T k t h v F hs l F' Tk S0 IH S1 IH1 K. econstructor; [eauto|apply IH|apply IH1]; intros b B; apply K; apply in_or_app; auto.
Qed.
Definition sees_frame e m m' := proj1 (sees_frame_all e m m').
Definition sees_list_frame e m m' := proj1 (proj2 (sees_frame_all e m m')).
Definition sees_pairs_frame e m m' := proj2 (proj2 (sees_frame_all e m m')).
Lemma sees_in_all e m :
  (forall t h v F, sees e m t h v F -> forall b, In b F -> b < length m) /\
  (forall i hs l F, sees_list e m i hs l F -> forall b, In b F -> b < length m) /\
  (forall T hs l F, sees_pairs e m T hs l F -> forall b, In b F -> b < length m).
Proof.
  apply sees_comb; try (intros; cbn in *; now eauto); try (intros; cbn in *; contradiction).
  - intros t sm i a h v F E1 E2 S0 IH b [<-|B]; [now apply nth_some_lt in E2|auto].
  - intros i h v F hs l F' S0 IH S1 IH1 b B. apply in_app_or in B. destruct B; auto.
  - intros T k t h v F hs l F' Tk S0 IH S1 IH1 b B. apply in_app_or in B. destruct B; auto.
Qed.
Lemma sees_in e m t h v F b : sees e m t h v F -> In b F -> b < length m.
Proof. intro H. now apply (proj1 (sees_in_all e m) t h v F). Qed.

(* ---- building a value ---- *)
Lemma build_list l m : build (VList l) m = (let (hs, m1) := (fix go l m := match l with
      | [] => ([], m)
      | x :: l' => let (h, m1) := build x m in let (hs, m2) := go l' m1 in (h :: hs, m2)
      end) l m in (HL hs, m1)).
Proof. reflexivity. Qed.
Fixpoint build_l (l : list val) (m : store) : list hval * store :=
  match l with
  | [] => ([], m)
  | x :: l' => let (h, m1) := build x m in let (hs, m2) := build_l l' m1 in (h :: hs, m2)
  end.
Fixpoint build_p (l : list (str * val)) (m : store) : list (str * hval) * store :=
  match l with
  | [] => ([], m)
  | (k, x) :: l' => let (h, m1) := build x m in let (hs, m2) := build_p l' m1 in ((k, h) :: hs, m2)
  end.
Lemma build_VList l m : build (VList l) m = let (hs, m1) := build_l l m in (HL hs, m1).
Proof. reflexivity. Qed.
Lemma build_VMap l m : build (VMap l) m = let (hs, m1) := build_p l m in (HM hs, m1).
Proof. reflexivity. Qed.
Lemma build_VObj l m : build (VObj l) m = let (hs, m1) := build_p l m in (HO hs, m1).
Proof. reflexivity. Qed.
Lemma build_plain v m : plain v -> build v m = (HV v, m).
Proof. destruct v; cbn; try contradiction; auto. Qed.

Lemma NoDup_app {A} (l l' : list A) : NoDup l -> NoDup l' -> (forall x, In x l -> In x l' -> False) -> NoDup (l ++ l').
Proof.
  induction l as [|x l IH]; cbn; auto. inversion_clear 1. intros N2 D. constructor.
  - intro K. apply in_app_or in K. destruct K; [contradiction|]. apply (D x); [now left|auto].
  - apply IH; auto. intros y Y1 Y2. apply (D y); [now right|auto].
Qed.
Lemma NoDup_app_inv {A} (l l' : list A) : NoDup (l ++ l') -> NoDup l /\ NoDup l' /\ (forall x, In x l -> In x l' -> False).
Proof.
  induction l as [|x l IH]; cbn; [intro; repeat split; auto; constructor|]. inversion_clear 1. destruct (IH H1) as (A1 & A2 & A3). repeat split; auto.
  - constructor; auto. intro K. apply H0. apply in_or_app. auto.
  - intros y [<-|Y1] Y2; [apply H0; apply in_or_app; auto|eauto].
Qed.

Definition builds {X Y} (S0 : store -> X -> Y -> list nat -> Prop) (b : store -> X * store) (v : Y) : Prop :=
  forall m, exists h n F, b m = (h, m ++ n) /\ S0 (m ++ n) h v F /\ NoDup F /\ (forall b, In b F -> length m <= b).
Lemma build_all e :
  (forall t v, built e t v -> builds (fun m => sees e m t) (build v) v) /\
  (forall i l, built_list e i l -> builds (fun m => sees_list e m i) (build_l l) l) /\
  (forall T l, built_pairs e T l -> builds (fun m => sees_pairs e m T) (build_p l) l).
Proof.
  apply built_comb.
  - intros t d v E1 E2 P m. exists (HV v), [], []. rewrite app_nil_r. rewrite build_plain by auto. repeat split; [econstructor; eauto|constructor|cbn; tauto].
  - intros t sm i E1 m. exists (HP None), [], []. rewrite app_nil_r. repeat split; [econstructor; eauto|constructor|cbn; tauto].
  - intros t sm i v E1 _ IH m. destruct (IH m) as (h & n & F & B & S0 & N1 & L). exists (HP (Some (length (m ++ n)))), (n ++ [h]), (length (m ++ n) :: F).
    cbn [build]. rewrite B. rewrite app_assoc. repeat split.
    + eapply se_ptr; eauto; [apply nth_snoc|]. eapply sees_frame; eauto. intros b Hb. apply nth_app. eapply sees_in; eauto.
    + constructor; auto. intro K. apply (sees_in _ _ _ _ _ _ _ S0) in K. lia.
    + intros b [<-|K]; [rewrite app_length; lia|auto].
  - intros t i l E1 _ IH m. destruct (IH m) as (h & n & F & B & S0 & N1 & L). exists (HL h), n, F. rewrite build_VList, B. repeat split; auto. eapply se_list; eauto.
  - intros t i l E1 _ IH m. destruct (IH m) as (h & n & F & B & S0 & N1 & L). exists (HM h), n, F. rewrite build_VMap, B. repeat split; auto. eapply se_map; eauto.
  - intros t fs ini o E1 E2 _ IH m. destruct (IH m) as (h & n & F & B & S0 & N1 & L). exists (HO h), n, F. rewrite build_VObj, B. repeat split; auto. eapply se_obj; eauto.
  - intros i m. exists [], [], []. rewrite app_nil_r. repeat split; [constructor|constructor|cbn; tauto].
  - intros i v l _ IH _ IHl m. destruct (IH m) as (h & n & F & B & S0 & N1 & L). destruct (IHl (m ++ n)) as (hs & n' & F' & B' & S1 & N2 & L').
    exists (h :: hs), (n ++ n'), (F ++ F'). cbn [build_l]. rewrite B, B', app_assoc. repeat split.
    + constructor; auto. eapply sees_frame; eauto. intros b Hb. apply nth_app. eapply sees_in; eauto.
    + apply NoDup_app; auto. intros x X1 X2. apply (sees_in _ _ _ _ _ _ _ S0) in X1. apply L' in X2. lia.
    + intros b Hb. apply in_app_or in Hb. destruct Hb as [Hb|Hb]; auto. apply L' in Hb. rewrite app_length in Hb. lia.
  - intros T m. exists [], [], []. rewrite app_nil_r. repeat split; [constructor|constructor|cbn; tauto].
  - intros T k t v l Tk _ IH _ IHl m. destruct (IH m) as (h & n & F & B & S0 & N1 & L). destruct (IHl (m ++ n)) as (hs & n' & F' & B' & S1 & N2 & L').
    exists ((k, h) :: hs), (n ++ n'), (F ++ F'). cbn [build_p]. rewrite B, B', app_assoc. repeat split.
    + econstructor; eauto. eapply sees_frame; eauto. intros b Hb. apply nth_app. eapply sees_in; eauto.
    + apply NoDup_app; auto. intros x X1 X2. apply (sees_in _ _ _ _ _ _ _ S0) in X1. apply L' in X2. lia.
    + intros b Hb. apply in_app_or in Hb. destruct Hb as [Hb|Hb]; auto. apply L' in Hb. rewrite app_length in Hb. lia.
Qed.
Lemma new_object_sees e t m : built e t (dval e t) -> exists n F h, new_object e t m = (length (m ++ n), m ++ n ++ [h]) /\
  sees e (m ++ n ++ [h]) t h (dval e t) F /\ NoDup F /\ (forall b, In b F -> length m <= b < length (m ++ n)).
Proof.
  intro Ty. destruct (proj1 (build_all e) t _ Ty m) as (h & n & F & B & S0 & N1 & L). exists n, F, h. unfold new_object. rewrite B. repeat split; auto.
  - now rewrite app_assoc.
  - rewrite app_assoc. eapply sees_frame; eauto. intros b Hb. apply nth_app. eapply sees_in; eauto.
  - eapply sees_in; eauto.
Qed.

(* ---- printing ---- *)
Section Print.
Context (e : env) (m : store).
Lemma sees_list_nth i hs l F : sees_list e m i hs l F -> length hs = length l /\
  forall n, (nth_error hs n = None /\ nth_error l n = None) \/
    exists h v G, nth_error hs n = Some h /\ nth_error l n = Some v /\ sees e m i h v G.
Proof.
  induction 1 as [|i h v F hs l F' S0 S1 [L IH]]; [split; auto; intros [|n]; left; auto|]. split; [cbn; auto|]. intros [|n]; cbn.
  - right. eauto 6.
  - apply IH.
Qed.
Lemma sees_pairs_find T hs l F : sees_pairs e m T hs l F -> akeys hs = akeys l /\
  forall k, (afind k hs = None /\ afind k l = None) \/
    exists h v t G, afind k hs = Some h /\ afind k l = Some v /\ T k t /\ sees e m t h v G.
Proof.
  induction 1 as [|T k t h v F hs l F' Tk S0 S1 [L IH]]; [split; auto; intros; left; auto|]. split; [cbn; f_equal; auto|]. intro j. cbn.
  destruct (str_eqb j k) eqn:E; [|apply IH]. apply str_eqb_sound in E. subst j. right. eauto 8.
Qed.
Lemma is_empty_sees n t h v F : sees e m t h v F -> is_empty_h n e t m h = is_empty n e t v.
Proof.
  revert t h v F. induction n as [|n IH]; intros t h v F S0; cbn [is_empty_h is_empty]; [reflexivity|].
  inversion S0; subst; rewrite ?H; cbn [list_of hlist map_of hpairs]; auto.
  - destruct d; cbn in *; try contradiction; auto.
  - rewrite (nth_cell _ _ _ H0). eapply IH; eauto.
  - inversion H0; subst; auto.
  - inversion H0; subst; auto.
Qed.
Lemma print_sees n : env_built e -> forall t h v F w, sees e m t h v F -> print_h n e t m h w = print_t n e t v w.
Proof.
  intro ET. induction n as [|n IH]; intros t h v F w S0; cbn [print_h print_t]; [reflexivity|].
  inversion S0; subst; rewrite ?H; auto.
  - destruct d; cbn in *; try contradiction; auto.
  - rewrite (nth_cell _ _ _ H0). eapply IH; eauto.
  - destruct (sees_list_nth _ _ _ _ H0) as [L K]. rewrite L. apply print_array_ext. intros j w'.
    destruct (K j) as [[-> ->]|(h & v & G & -> & -> & S1)]; auto. eapply IH; eauto.
  - destruct (sees_pairs_find _ _ _ _ H0) as [L K]. rewrite L. apply print_object_ext; [|reflexivity]. intros j w' _.
    destruct (K j) as [[-> ->]|(h & v & t' & G & -> & -> & -> & S1)]; auto. eapply IH; eauto.
  - destruct (sees_pairs_find _ _ _ _ H1) as [L K]. pose proof (proj2 (ET _ _ H)) as ND. cbn in ND.
    assert (Fd : forall a fd, find_last_alias fs a = Some fd -> exists h v G, hget (HO hs) [f_key fd] = h /\ field_of (f_key fd) o = v /\ sees e m (f_type fd) h v G).
    { intros a fd E. unfold find_last_alias in E. apply find_some in E. destruct E as [E _]. rewrite <- in_rev in E. apply filter_In in E. destruct E as [E _].
      destruct (K (f_key fd)) as [[K1 K2]|(h & v & t' & G & K1 & K2 & (f & I1 & I2 & I3) & S1)].
      - apply afind_None in K2. exfalso. apply K2. apply H0. now apply in_map.
      - exists h, v, G. cbn. unfold field_of. rewrite K1, K2. repeat split; auto. subst t'.
        replace fd with f; auto. clear - ND E I1 I2. induction fs as [|g fs IH]; [contradiction|]. cbn in ND. inversion_clear ND.
        destruct E as [->|E], I1 as [->|I1]; auto.
        + exfalso. apply H. rewrite <- I2. now apply in_map.
        + exfalso. apply H. rewrite I2. now apply in_map. }
    apply print_object_ext.
    + intros a w' _. destruct (find_last_alias fs a) as [fd|] eqn:E; auto. destruct (Fd _ _ E) as (h & v & G & -> & -> & S1). eapply IH; eauto.
    + intros a w'. intros. destruct (negb _ && negb _); auto. destruct (find_last_alias fs a) as [fd|] eqn:E; auto. destruct (Fd _ _ E) as (h & v & G & -> & -> & S1).
      eapply is_empty_sees; eauto.
Qed.
End Print.
