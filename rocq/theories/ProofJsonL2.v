(* ProofJsonL2.v - proofs: what reading leaves in memory, object by object. *)
From Verif Require Import Base Dec ModelJson ModelJsonT ModelJsonH ProofJsonH1 ModelJsonL SpecJsonL ProofJsonL1.
From Coq Require Import Lia.
Local Open Scope nat_scope.

(* m' is m with some objects destroyed *)
Definition less (m' m : lstore) : Prop := forall x h, nth_error m' x = Some (Some h) -> nth_error m x = Some (Some h).
Lemma less_pointer m' m k y : less m' m -> pointer m' k y -> pointer m k y.
Proof. intros L (x & h & E & I1). exists x, h. auto. Qed.
Lemma less_points m' m x y : less m' m -> points m' x y -> points m x y.
Proof. intros L (h & k & E & I1). exists h, k. auto. Qed.
Lemma points_pointer m x y : points m x y -> exists k, pointer m k y.
Proof. intros (h & k & E & I1). exists k, x, h. auto. Qed.
Lemma live_lt m x : live m x -> x < length m.
Proof. intros (h & E). eapply nth_some_lt; eauto. Qed.
Lemma acc_shrink m m' : (forall x y, points m' x y -> points m x y) -> forall x, chains_end m x -> chains_end m' x.
Proof. intros H x A. induction A as [x A IH]. constructor. intros y P. apply IH. auto. Qed.
Lemma acc_put m a c (D : nat -> Prop) : (forall x y, D x -> points m x y -> D y) -> ~ D a ->
  (forall h k y, c = Some h -> In (k, y) (ptrs h) -> D y /\ chains_end m y) ->
  forall x, chains_end m x -> chains_end (put m a c) x.
Proof.
  intros HD Na Hc.
  assert (S : forall x y, x <> a -> points (put m a c) x y -> points m x y).
  { intros x y Nx (h & k & E & I1). rewrite put_other in E by auto. exists h, k. auto. }
  assert (G1 : forall z, chains_end m z -> D z -> chains_end (put m a c) z).
  { intros z A. induction A as [z A IH]. intro Dz. constructor. intros y P.
    assert (Nz : z <> a) by (intros ->; auto). apply S in P; auto. apply IH; eauto. }
  assert (G2 : chains_end (put m a c) a).
  { constructor. intros y (h & k & E & I1). destruct (put_cases _ _ _ _ _ E) as [[_ Eh]|[N _]]; [|congruence].
    destruct (Hc h k y (eq_sym Eh) I1). apply G1; auto. }
  intros x A. induction A as [x A IH]. destruct (Nat.eq_dec x a) as [->|Nx]; auto.
  constructor. intros y P. apply IH. now apply S.
Qed.
Lemma acc_dead m x : length m <= x -> chains_end m x.
Proof. intro L. constructor. intros y (h & k & E & _). apply nth_some_lt in E. lia. Qed.
Lemma reached_front m y z : reached m y z -> z = y \/ exists y', points m y y' /\ reached m y' z.
Proof.
  induction 1 as [|u z Ru IH P]; [auto|]. right. destruct IH as [->|(y' & P' & R')].
  - exists z. split; [auto|constructor].
  - exists y'. split; auto. econstructor; eauto.
Qed.
(* strictly below x *)
Definition below (m : lstore) (x z : nat) : Prop := exists y, points m x y /\ reached m y z.
Lemma below_irrefl m x : chains_end m x -> ~ below m x x.
Proof.
  intro A. induction A as [x A IH]. intros (y & P & R). apply (IH y P).
  destruct (reached_front _ _ _ R) as [->|(y' & P' & R')].
  - exists y. split; [auto|constructor].
  - exists y'. split; auto. econstructor; eauto.
Qed.

Section Release.
Variable ext : list nat.

Lemma release_ok (B : nat -> Prop) : forall fuel todo m, no_dangling m -> apart ext m ->
  (forall b, In b todo -> B b /\ (pointer m false b -> In b ext)) ->
  (forall x y, B x -> points m x y -> B y) ->
  no_dangling (release fuel ext todo m) /\ apart ext (release fuel ext todo m) /\
  length (release fuel ext todo m) = length m /\
  forall x, nth_error (release fuel ext todo m) x = nth_error m x \/ (B x /\ nth_error (release fuel ext todo m) x = Some None).
Proof.
  induction fuel as [|f IH]; intros todo m Nd Ap T C; [cbn; auto|]. destruct todo as [|b todo]; [cbn; auto|]. cbn [release].
  destruct (existsb (Nat.eqb b) ext || existsb (Nat.eqb b) (all_owned m))%bool eqn:E.
  { apply IH; auto. intros c Hc. apply T. now right. }
  apply Bool.orb_false_iff in E as [E1 E2].
  assert (N1 : ~ In b ext) by (intro I1; apply existsb_in in I1; congruence).
  assert (N2 : ~ pointer m true b) by (intro I1; apply in_all_owned, existsb_in in I1; congruence).
  destruct (T b (or_introl eq_refl)) as [Bb Rb].
  destruct (nth_error m b) as [[h|]|] eqn:Eb; try (apply IH; auto; intros c Hc; apply T; now right).
  assert (L : less (put m b None) m).
  { intros x h' Ex. apply put_cases in Ex as [[_ Q]|[_ Q]]; [discriminate|auto]. }
  destruct (IH (owned h ++ todo) (put m b None)) as (A1 & A2 & A3 & A4).
  - intros k y P. pose proof (less_pointer _ _ _ _ L P) as P'. destruct (Nd k y P') as [hy Ey].
    assert (y <> b). { intros ->. destruct k; [auto|]. apply N1, Rb, P'. }
    exists hy. rewrite put_other; auto.
  - intros y P1 P2. apply Ap; eapply less_pointer; eauto.
  - intros y I1. apply in_app_iff in I1 as [I1|I1].
    + apply in_owned in I1. split; [apply (C b); auto; exists h, true; auto|]. intro P. apply Ap; [eapply less_pointer; eauto|].
      exists b, h. auto.
    + destruct (T y (or_intror I1)) as [By Ry]. split; auto. intro P. apply Ry. eapply less_pointer; eauto.
  - intros x y Bx P. apply (C x); auto. eapply less_points; eauto.
  - rewrite put_length in A3. repeat split; auto. intro x. destruct (A4 x) as [Q|[Q1 Q2]]; [|auto].
    destruct (Nat.eq_dec x b) as [->|Nx]; [|left; rewrite Q; now apply put_other].
    right. split; auto. rewrite Q. apply put_same. eapply nth_some_lt; eauto.
Qed.
Lemma release_less fuel : forall todo m, less (release fuel ext todo m) m /\ length (release fuel ext todo m) = length m.
Proof.
  induction fuel as [|f IH]; intros todo m; [cbn; split; [intros x h E; exact E|reflexivity]|]. destruct todo as [|b todo]; [cbn; split; [intros x h E; exact E|reflexivity]|]. cbn [release].
  destruct (existsb (Nat.eqb b) ext || existsb (Nat.eqb b) (all_owned m))%bool; auto.
  destruct (nth_error m b) as [[h|]|]; auto. destruct (IH (owned h ++ todo) (put m b None)) as [A1 A2]. rewrite put_length in A2. split; auto.
  intros x h' E. apply A1 in E. apply put_cases in E as [[_ Q]|[_ Q]]; [discriminate|auto].
Qed.
End Release.

(* ---- what an operation on the object a may do ---- *)
(* B: the objects below a *)
Definition region (ext : list nat) (B : nat -> Prop) (a : nat) (m : lstore) : Prop :=
  no_dangling m /\ apart ext m /\ live m a /\ chains_end m a /\ ~ B a /\
  (forall y z, y = a \/ B y -> points m y z -> B z) /\ (forall x, B x -> x < length m).

Record frame (ext : list nat) (B : nat -> Prop) (a : nat) (m0 m : lstore) : Prop := mkFrame {
  fr_len : length m0 <= length m;
  fr_out : forall x, x < length m0 -> nth_error m x = nth_error m0 x \/ x = a \/ B x;
  fr_live : live m a;
  fr_in : forall y z, y = a \/ B y \/ length m0 <= y -> points m y z -> B z \/ length m0 <= z;
  fr_nd : no_dangling m;
  fr_ap : apart ext m;
  fr_acc : forall x, chains_end m0 x -> chains_end m x;
  fr_new : forall x, length m0 <= x -> chains_end m x
}.

Section Frames.
Variable ext : list nat.
Ltac ands := repeat match goal with |- _ /\ _ => split end.
Local Notation region := (region ext).
Local Notation frame := (frame ext).

Lemma frame_refl B a m : region B a m -> frame B a m m.
Proof.
  intros (Nd & Ap & Lv & Ac & Na & Cl & Bd). constructor; auto.
  - intros y z [->|[Hy|Hy]] P; [left; apply (Cl a z); auto|left; apply (Cl y z); auto|].
    destruct P as (h & k & E & _). apply nth_some_lt in E. lia.
  - apply acc_dead.
Qed.
Lemma frame_region B a m0 m : region B a m0 -> frame B a m0 m ->
  region (fun z => B z \/ length m0 <= z < length m) a m.
Proof.
  intros (Nd & Ap & Lv & Ac & Na & Cl & Bd) F. pose proof (live_lt _ _ Lv) as La. red; ands; try solve [apply F].
  - now apply (fr_acc _ _ _ _ _ F).
  - intros [H|H]; [auto|lia].
  - intros y z Hy P. assert (Lz : z < length m). { destruct (points_pointer _ _ _ P) as [k Pk]. apply live_lt. eapply (fr_nd _ _ _ _ _ F); eauto. }
    destruct (fr_in _ _ _ _ _ F y z) as [Q|Q]; auto. destruct Hy as [->|[Hy|Hy]]; auto. right. right. lia.
  - intros x [Hx|Hx]; [|lia]. specialize (Bd x Hx). pose proof (fr_len _ _ _ _ _ F). lia.
Qed.
Lemma frame_trans B a m0 m m' : region B a m0 -> frame B a m0 m -> frame (fun z => B z \/ length m0 <= z < length m) a m m' ->
  frame B a m0 m'.
Proof.
  intros R F F'. pose proof (fr_len _ _ _ _ _ F) as L1. pose proof (fr_len _ _ _ _ _ F') as L2. constructor; try apply F'.
  - lia.
  - intros x Lx. destruct (fr_out _ _ _ _ _ F' x) as [Q|[Q|[Q|Q]]]; auto; try lia. rewrite Q. now apply (fr_out _ _ _ _ _ F).
  - intros y z Hy P. destruct (Nat.lt_ge_cases y (length m)) as [Ly|Ly].
    + destruct (fr_in _ _ _ _ _ F' y z) as [[Q|Q]|Q]; auto; try (right; lia).
      destruct Hy as [->|[Hy|Hy]]; auto.
    + destruct (fr_in _ _ _ _ _ F' y z) as [[Q|Q]|Q]; auto; right; lia.
  - intros x A. apply (fr_acc _ _ _ _ _ F'). now apply (fr_acc _ _ _ _ _ F).
  - intros x Lx. apply (fr_acc _ _ _ _ _ F'). now apply (fr_new _ _ _ _ _ F).
Qed.
(* an operation on another object c, below a or new *)
Lemma sub_frame B a m0 m1 Bc c m2 : region B a m0 -> frame B a m0 m1 ->
  (forall y, y = c \/ Bc y -> B y \/ length m0 <= y) -> frame Bc c m1 m2 -> frame B a m0 m2.
Proof.
  intros R F S F2. pose proof (fr_len _ _ _ _ _ F) as L1. pose proof (fr_len _ _ _ _ _ F2) as L2.
  destruct R as (Nd & Ap & Lv & Ac & Na & Cl & Bd). pose proof (live_lt _ _ Lv) as La.
  assert (Keep : nth_error m2 a = nth_error m1 a).
  { destruct (fr_out _ _ _ _ _ F2 a) as [Q|Q]; [lia|auto|]. destruct (S a Q) as [K|K]; [contradiction|lia]. }
  constructor; try apply F2.
  - lia.
  - intros x Lx. destruct (fr_out _ _ _ _ _ F2 x) as [Q|Q]; [lia|rewrite Q; now apply (fr_out _ _ _ _ _ F)|].
    destruct (S x Q) as [K|K]; [auto|lia].
  - destruct (fr_live _ _ _ _ _ F) as [h E]. exists h. now rewrite Keep.
  - intros y z Hy P. destruct (Nat.lt_ge_cases y (length m1)) as [Ly|Ly].
    + destruct (fr_out _ _ _ _ _ F2 y Ly) as [Q|Q].
      * apply (fr_in _ _ _ _ _ F y z Hy). destruct P as (h & k & E & I1). exists h, k. rewrite <- Q. auto.
      * destruct (fr_in _ _ _ _ _ F2 y z) as [K|K]; auto; [tauto|right; lia].
    + destruct (fr_in _ _ _ _ _ F2 y z) as [K|K]; auto. right. lia.
  - intros x A. apply (fr_acc _ _ _ _ _ F2). now apply (fr_acc _ _ _ _ _ F).
  - intros x Lx. apply (fr_acc _ _ _ _ _ F2). now apply (fr_new _ _ _ _ _ F).
Qed.

(* releasing objects below a *)
Lemma settle B a m0 m fuel todo : region B a m0 -> frame B a m0 m ->
  (forall b, In b todo -> (B b \/ length m0 <= b) /\ (pointer m false b -> In b ext)) ->
  frame B a m0 (release fuel ext todo m).
Proof.
  intros R F T. destruct R as (Nd & Ap & Lv & Ac & Na & Cl & Bd). pose proof (live_lt _ _ Lv) as La.
  destruct (release_ok ext (fun z => B z \/ length m0 <= z) fuel todo m) as (A1 & A2 & A3 & A4); try apply F; auto.
  { intros x y Hx P. apply (fr_in _ _ _ _ _ F x); auto. }
  destruct (release_less ext fuel todo m) as [Ls _].
  set (m' := release fuel ext todo m) in *. pose proof (fr_len _ _ _ _ _ F) as L1. constructor; auto.
  - lia.
  - intros x Lx. destruct (A4 x) as [Q|[[Q|Q] _]]; [rewrite Q; now apply (fr_out _ _ _ _ _ F)|auto|lia].
  - destruct (A4 a) as [Q|[[Q|Q] _]]; [|contradiction|lia]. destruct (fr_live _ _ _ _ _ F) as [h E]. exists h. now rewrite Q.
  - intros y z Hy P. apply (fr_in _ _ _ _ _ F y z Hy). eapply less_points; eauto.
  - intros x A. eapply acc_shrink; [intros u v; apply less_points; eauto|]. now apply (fr_acc _ _ _ _ _ F).
  - intros x Lx. eapply acc_shrink; [intros u v; apply less_points; eauto|]. now apply (fr_new _ _ _ _ _ F).
Qed.

(* a new content for a *)
Lemma put_frame B a m0 m h' : region B a m0 -> frame B a m0 m ->
  (forall k y, In (k, y) (ptrs h') -> (B y \/ length m0 <= y) /\ live m y /\ chains_end m y) ->
  apart ext (put m a (Some h')) -> frame B a m0 (put m a (Some h')).
Proof.
  intros R F H1 H2. destruct R as (Nd & Ap & Lv & Ac & Na & Cl & Bd). pose proof (live_lt _ _ Lv) as La.
  pose proof (fr_len _ _ _ _ _ F) as L1.
  assert (Lp : forall y, live m y -> live (put m a (Some h')) y).
  { intros y [h E]. destruct (Nat.eq_dec y a) as [->|N]; [exists h'; apply put_same; eapply nth_some_lt; eauto|exists h; now rewrite put_other]. }
  assert (AP : forall x, chains_end m x -> chains_end (put m a (Some h')) x).
  { apply acc_put with (D := fun z => B z \/ length m0 <= z).
    - intros x y Hx P. apply (fr_in _ _ _ _ _ F x); auto.
    - intros [Q|Q]; [auto|lia].
    - intros h k y [= <-] I1. destruct (H1 k y I1) as (Q1 & Q2 & Q3). auto. }
  constructor; auto.
  - now rewrite put_length.
  - intros x Lx. destruct (Nat.eq_dec x a) as [->|N]; auto. rewrite put_other by auto. now apply (fr_out _ _ _ _ _ F).
  - apply Lp, F.
  - intros y z Hy (h & k & E & I1). apply put_cases in E as [[-> Eh]|[N E]].
    + injection Eh as ->. now apply (H1 k).
    + apply (fr_in _ _ _ _ _ F y z Hy). exists h, k. auto.
  - intros k y (x & h & E & I1). apply put_cases in E as [[-> Eh]|[N E]].
    + injection Eh as ->. apply Lp. now apply (H1 k).
    + apply Lp. eapply (fr_nd _ _ _ _ _ F). exists x, h. eauto.
  - intros x A. apply AP. now apply (fr_acc _ _ _ _ _ F).
  - intros x Lx. apply AP. now apply (fr_new _ _ _ _ _ F).
Qed.
(* facts about what a holds *)
Lemma held B a m0 m h k y : region B a m0 -> frame B a m0 m -> nth_error m a = Some (Some h) -> In (k, y) (ptrs h) ->
  (B y \/ length m0 <= y) /\ live m y /\ chains_end m y.
Proof.
  intros R F E I1. assert (P : points m a y) by (exists h, k; auto). ands.
  - apply (fr_in _ _ _ _ _ F a y); auto.
  - eapply (fr_nd _ _ _ _ _ F). exists a, h. eauto.
  - destruct R as (_ & _ & _ & Ac & _). apply (fr_acc _ _ _ _ _ F) in Ac. inversion Ac as [K]. now apply K.
Qed.
(* writing: m1 is m with the new content of a, and perhaps objects destroyed *)
Lemma drop_frame B a m0 m m1 h : region B a m0 -> frame B a m0 m -> nth_error m a = Some (Some h) ->
  frame B a m0 m1 -> (forall b, pointer m true b -> pointer m1 false b -> pointer m false b) ->
  frame B a m0 (dropped ext h m1).
Proof.
  intros R F E F1 Ap. unfold dropped.
  apply settle; auto. intros b I1. apply in_owned in I1.
  destruct (held _ _ _ _ _ _ _ R F E I1) as (Q & _ & _). split; auto.
  assert (P1 : pointer m true b) by (exists a, h; auto).
  intro P. apply (fr_ap _ _ _ _ _ F); auto.
Qed.
(* pointers of m1 are pointers of m *)
Definition within (m1 m : lstore) : Prop := forall k y, pointer m1 k y -> pointer m k y.
Lemma within_apart m1 m : within m1 m -> apart ext m -> apart ext m1.
Proof. intros W A y P1 P2. apply A; auto. Qed.
Lemma put_within m a h' : (forall k y, In (k, y) (ptrs h') -> pointer m k y) -> within (put m a (Some h')) m.
Proof.
  intros H k y (x & h & E & I1). apply put_cases in E as [[-> Eh]|[N E]]; [injection Eh as ->; auto|]. exists x, h. auto.
Qed.
(* A: nothing new *)
Lemma write_plain B a m0 m p h x : region B a m0 -> frame B a m0 m -> nth_error m a = Some (Some h) -> ptrs x = [] ->
  frame B a m0 (dropped ext h (put m a (Some (vset h p x)))).
Proof.
  intros R F E X.
  assert (S : forall k y, In (k, y) (ptrs (vset h p x)) -> In (k, y) (ptrs h)).
  { intros k y I1. apply ptrs_lset in I1 as [I1|I1]; auto. rewrite X in I1. destruct I1. }
  assert (W : within (put m a (Some (vset h p x))) m).
  { apply put_within. intros k y I1. exists a, h. auto. }
  apply (drop_frame B a m0 m); auto.
  apply put_frame; auto; [|eapply within_apart; eauto; apply F].
  intros k y I1. eapply held; eauto.
Qed.
(* B: a pointer to an object nobody pointed to *)
Lemma write_pointer B a m0 m p h sm c : region B a m0 -> frame B a m0 m -> nth_error m a = Some (Some h) ->
  (forall k, ~ pointer m k c) -> live m c -> chains_end m c -> length m0 <= c ->
  frame B a m0 (dropped ext h (put m a (Some (vset h p (LP sm (Some c)))))).
Proof.
  intros R F E Nc Lc Ac Gc.
  assert (S : forall k y, In (k, y) (ptrs (vset h p (LP sm (Some c)))) -> In (k, y) (ptrs h) \/ (k = sm /\ y = c)).
  { intros k y I1. apply ptrs_lset in I1 as [I1|I1]; auto. cbn in I1. destruct I1 as [[= <- <-]|[]]. auto. }
  assert (W : forall k y, pointer (put m a (Some (vset h p (LP sm (Some c))))) k y -> pointer m k y \/ (k = sm /\ y = c)).
  { intros k y (x & h' & E' & I1). apply put_cases in E' as [[-> Eh]|[N E']]; [injection Eh as ->|left; exists x, h'; auto].
    destruct (S k y I1) as [Q|Q]; auto. left. exists a, h. auto. }
  apply (drop_frame B a m0 m); auto.
  - apply put_frame; auto.
    + intros k y I1. destruct (S k y I1) as [Q|[_ ->]]; [eapply held; eauto|auto].
    + intros y P1 P2. destruct (W _ _ P1) as [Q1|[<- ->]], (W _ _ P2) as [Q2|[K Q2]].
      * now apply (fr_ap _ _ _ _ _ F).
      * subst y. destruct (Nc _ Q1).
      * destruct (Nc _ Q2).
      * discriminate.
  - intros b P1 P2. destruct (W _ _ P2) as [Q|[_ ->]]; auto. destruct (Nc _ P1).
Qed.
(* an object nobody points to is moved away *)
Lemma kill_frame B a m0 m c : region B a m0 -> frame B a m0 m -> (forall k, ~ pointer m k c) -> length m0 <= c ->
  frame B a m0 (put m c None).
Proof.
  intros R F Nc Gc. destruct R as (Nd & Ap & Lv & Ac & Na & Cl & Bd). pose proof (live_lt _ _ Lv) as La.
  pose proof (fr_len _ _ _ _ _ F) as L1.
  assert (Ls : less (put m c None) m).
  { intros x h E. apply put_cases in E as [[_ Q]|[_ Q]]; [discriminate|auto]. }
  constructor.
  - now rewrite put_length.
  - intros x Lx. rewrite put_other by lia. now apply (fr_out _ _ _ _ _ F).
  - destruct (fr_live _ _ _ _ _ F) as [h E]. exists h. rewrite put_other; [auto|lia].
  - intros y z Hy P. apply (fr_in _ _ _ _ _ F y z Hy). eapply less_points; eauto.
  - intros k y P. pose proof (less_pointer _ _ _ _ Ls P) as P'. destruct (fr_nd _ _ _ _ _ F _ _ P') as [h E].
    exists h. rewrite put_other; [auto|]. intros ->. eapply Nc; eauto.
  - intros y P1 P2. apply (fr_ap _ _ _ _ _ F); eapply less_pointer; eauto.
  - intros x A. eapply acc_shrink; [intros u v; apply less_points; eauto|]. now apply (fr_acc _ _ _ _ _ F).
  - intros x Lx. eapply acc_shrink; [intros u v; apply less_points; eauto|]. now apply (fr_new _ _ _ _ _ F).
Qed.
Lemma put_swap m a c u v : a <> c -> put (put m c u) a v = put (put m a v) c u.
Proof. revert a c. induction m as [|x m IH]; intros [|a] [|c] N; cbn; try reflexivity; [congruence|]. f_equal. apply IH. congruence. Qed.
(* C: the content y of the new object c moved into a *)
Lemma write_moved B a m0 m p h c y x : region B a m0 -> frame B a m0 m -> nth_error m a = Some (Some h) ->
  nth_error m c = Some (Some y) -> (forall k, ~ pointer m k c) -> length m0 <= c ->
  (forall k z, In (k, z) (ptrs x) -> In (k, z) (ptrs h) \/ In (k, z) (ptrs y)) ->
  frame B a m0 (dropped ext h (put (put m c None) a (Some (vset h p x)))).
Proof.
  intros R F E Ec Nc Gc Sx. assert (La : a < length m0) by (apply live_lt; apply R).
  assert (S : forall k z, In (k, z) (ptrs (vset h p x)) -> In (k, z) (ptrs h) \/ In (k, z) (ptrs y)).
  { intros k z I1. apply ptrs_lset in I1 as [I1|I1]; auto. }
  assert (W : within (put m a (Some (vset h p x))) m).
  { apply put_within. intros k z I1. destruct (S k z I1); [exists a, h; auto|exists c, y; auto]. }
  assert (F1 : frame B a m0 (put m a (Some (vset h p x)))).
  { apply put_frame; auto; [|eapply within_apart; eauto; apply F].
    intros k z I1. destruct (S k z I1) as [Q|Q]; [eapply held; eauto|].
    assert (P : points m c z) by (exists y, k; auto). ands.
    - apply (fr_in _ _ _ _ _ F c z); auto.
    - eapply (fr_nd _ _ _ _ _ F). exists c, y. eauto.
    - assert (A : chains_end m c) by now apply (fr_new _ _ _ _ _ F). inversion A as [K]. now apply K. }
  rewrite put_swap by lia. apply (drop_frame B a m0 m); auto.
  - apply kill_frame; auto. intros k P. eapply Nc; eauto.
  - intros b P1 P2. apply W. eapply less_pointer; [|exact P2]. intros u v Ev. apply put_cases in Ev as [[_ Q]|[_ Q]]; [discriminate|auto].
Qed.
(* a failed item is destroyed *)
Lemma drop_moved B a m0 m c y : region B a m0 -> frame B a m0 m ->
  nth_error m c = Some (Some y) -> (forall k, ~ pointer m k c) -> length m0 <= c ->
  frame B a m0 (dropped ext y (put m c None)).
Proof.
  intros R F Ec Nc Gc. unfold dropped. apply settle; auto; [apply kill_frame; auto|].
  intros b I1. apply in_owned in I1. split.
  - apply (fr_in _ _ _ _ _ F c b); auto. exists y, true. auto.
  - intro P. apply (fr_ap _ _ _ _ _ F); [|exists c, y; auto]. eapply less_pointer; [|exact P].
    intros u v Ev. apply put_cases in Ev as [[_ Q]|[_ Q]]; [discriminate|auto].
Qed.

(* allocation *)
Lemma nth_new (m : lstore) (n : list lval) x h : nth_error (m ++ map Some n) x = Some (Some h) ->
  (x < length m /\ nth_error m x = Some (Some h)) \/ (length m <= x /\ nth_error n (x - length m) = Some h).
Proof.
  intro E. destruct (Nat.lt_ge_cases x (length m)).
  - left. rewrite nth_error_app1 in E by auto. auto.
  - right. rewrite nth_error_app2 in E by auto. split; auto. rewrite nth_error_map in E. destruct (nth_error n (x - length m)); [now injection E as ->|discriminate].
Qed.
Lemma new_region m n : no_dangling m -> apart ext m -> 1 <= length n -> young (length m) n ->
  region (fun z => length m <= z < length m + length n - 1) (length m + length n - 1) (m ++ map Some n) /\
  (forall k, ~ pointer (m ++ map Some n) k (length m + length n - 1)) /\
  (forall x y, points (m ++ map Some n) x y -> points m x y \/ (length m <= x /\ length m <= y < x)) /\
  no_dangling (m ++ map Some n) /\ apart ext (m ++ map Some n).
Proof.
  intros Nd Ap Ln Y. set (c := length m + length n - 1).
  assert (Pt : forall k x y h, nth_error (m ++ map Some n) x = Some (Some h) -> In (k, y) (ptrs h) ->
     (x < length m /\ nth_error m x = Some (Some h)) \/ (k = true /\ length m <= x /\ length m <= y < x)).
  { intros k x y h E I1. destruct (nth_new _ _ _ _ E) as [Q|[Q1 Q2]]; auto. right. destruct (Y _ _ _ _ Q2 I1) as [-> Q]. split; [auto|lia]. }
  assert (Lv : forall x, length m <= x < length m + length n -> live (m ++ map Some n) x).
  { intros x Lx. destruct (nth_error n (x - length m)) as [h|] eqn:E; [|apply nth_error_None in E; lia].
    exists h. rewrite nth_error_app2, nth_error_map, E by lia. reflexivity. }
  assert (Old : forall y, live m y -> live (m ++ map Some n) y).
  { intros y [h E]. exists h. rewrite nth_error_app1; [auto|eapply nth_some_lt; eauto]. }
  assert (Ps : forall x y, points (m ++ map Some n) x y -> points m x y \/ (length m <= x /\ length m <= y < x)).
  { intros x y (h & k & E & I1). destruct (Pt k x y h E I1) as [[Q1 Q2]|(_ & Q)]; auto. left. exists h, k. auto. }
  assert (Hx : forall x h, nth_error (m ++ map Some n) x = Some (Some h) -> x < length m + length n).
  { intros x h E. apply nth_some_lt in E. now rewrite app_length, map_length in E. }
  assert (N1 : no_dangling (m ++ map Some n)).
  { intros k y (x & h & E & I1). destruct (Pt k x y h E I1) as [[Q1 Q2]|(_ & Q1 & Q2)].
    - apply Old. eapply Nd. exists x, h. eauto.
    - apply Lv. specialize (Hx _ _ E). lia. }
  assert (A1 : apart ext (m ++ map Some n)).
  { intros y (x & h & E & I1) (x' & h' & E' & I1').
    destruct (Pt _ x y h E I1) as [[Q1 Q2]|(Q & _)]; [|discriminate].
    assert (Ly : y < length m) by (apply live_lt; eapply Nd; exists x, h; eauto).
    destruct (Pt _ x' y h' E' I1') as [[Q1' Q2']|(_ & Q)]; [|lia]. apply Ap; [exists x, h|exists x', h']; auto. }
  assert (Acc1 : forall j x, length m <= x < length m + j -> chains_end (m ++ map Some n) x).
  { induction j as [|j IH]; intros x Lx; [lia|]. constructor. intros y P. destruct (Ps _ _ P) as [(h & k & E & _)|[_ Q]].
    - apply nth_some_lt in E. lia.
    - apply IH. lia. }
  split; [|split; [|auto]].
  - split; [auto|]. split; [auto|]. split; [apply Lv; lia|]. split; [apply (Acc1 (length n)); lia|]. split; [lia|]. split.
    + intros y z Hy P. destruct (Ps _ _ P) as [(h & k & E & _)|[Q1 Q2]].
      * apply nth_some_lt in E. destruct Hy as [->|Hy]; lia.
      * destruct Hy as [->|Hy]; lia.
    + intros x Hx'. rewrite app_length, map_length. lia.
  - intros k (x & h & E & I1). destruct (Pt k x c h E I1) as [[Q1 Q2]|(_ & Q1 & Q2)].
    + assert (c < length m) by (apply live_lt; eapply Nd; exists x, h; eauto). lia.
    + specialize (Hx _ _ E). lia.
Qed.
Lemma new_frame B a m0 m n : region B a m0 -> frame B a m0 m -> young (length m) n -> 1 <= length n ->
  frame B a m0 (m ++ map Some n).
Proof.
  intros R F Y Ln. pose proof (fr_len _ _ _ _ _ F) as L1.
  destruct (new_region m n (fr_nd _ _ _ _ _ F) (fr_ap _ _ _ _ _ F) Ln Y) as ((_ & _ & Lc & _ & _ & _ & _) & Nc & Ps & N1 & A1).
  assert (La : a < length m) by (apply live_lt, F).
  assert (AC : forall x, chains_end m x -> chains_end (m ++ map Some n) x).
  { assert (G : forall j x, length m <= x < length m + j -> chains_end (m ++ map Some n) x).
    { induction j as [|j IH]; intros x Lx; [lia|]. constructor. intros y P. destruct (Ps _ _ P) as [(h & k & E & _)|[_ Q]].
      - apply nth_some_lt in E. lia.
      - apply IH. lia. }
    intros x A. induction A as [x A IH]. constructor. intros y P. destruct (Ps _ _ P) as [Q|[Q1 Q2]]; [now apply IH|].
    apply (G (S (y - length m))). lia. }
  constructor; auto.
  - rewrite app_length. lia.
  - intros x Lx. rewrite nth_error_app1 by lia. now apply (fr_out _ _ _ _ _ F).
  - destruct (fr_live _ _ _ _ _ F) as [h E]. exists h. now rewrite nth_error_app1.
  - intros y z Hy P. destruct (Ps _ _ P) as [Q|[Q1 Q2]]; [now apply (fr_in _ _ _ _ _ F y)|right; lia].
  - intros x A. apply AC. now apply (fr_acc _ _ _ _ _ F).
  - intros x Lx. apply AC. now apply (fr_new _ _ _ _ _ F).
Qed.
(* nobody points to an object after an operation on it if nobody did before *)
Lemma alone B c m1 m2 : region B c m1 -> frame B c m1 m2 -> (forall k, ~ pointer m1 k c) -> forall k, ~ pointer m2 k c.
Proof.
  intros R F N k (x & h & E & I1). destruct R as (Nd & Ap & Lv & Ac & Na & Cl & Bd). pose proof (live_lt _ _ Lv) as Lc.
  assert (In1 : x = c \/ B x \/ length m1 <= x -> False).
  { intro H. destruct (fr_in _ _ _ _ _ F x c H) as [Q|Q]; [exists h, k; auto|contradiction|lia]. }
  destruct (Nat.lt_ge_cases x (length m1)) as [L|L]; [|auto].
  destruct (fr_out _ _ _ _ _ F x L) as [Q|Q]; [|tauto]. apply (N k). exists x, h. rewrite <- Q. auto.
Qed.
(* the object a pointer of a leads to *)
Lemma below_region B a m0 m h k b : region B a m0 -> frame B a m0 m -> nth_error m a = Some (Some h) -> In (k, b) (ptrs h) ->
  region (below m b) b m /\ (forall y, y = b \/ below m b y -> B y \/ length m0 <= y).
Proof.
  intros R F E I1. destruct (held _ _ _ _ _ _ _ R F E I1) as (Q1 & Q2 & Q3).
  assert (G : forall y, reached m b y -> B y \/ length m0 <= y).
  { induction 1 as [|x y Hx IH P]; [auto|]. apply (fr_in _ _ _ _ _ F x); auto. }
  assert (G2 : forall y, y = b \/ below m b y -> reached m b y).
  { intros y [->|(z & P & Rz)]; [constructor|]. clear - P Rz. induction Rz; [econstructor; [constructor|eauto]|econstructor; eauto]. }
  split; [|intros y Hy; apply G; auto]. red; ands; try solve [apply F]; auto.
  - now apply below_irrefl.
  - intros y z Hy P. destruct Hy as [->|(u & Pu & Ru)]; [exists z; split; [auto|constructor]|exists u; split; [auto|econstructor; eauto]].
  - intros x (y & P & Rx). assert (Lx : exists k', pointer m k' x).
    { destruct Rx as [|u v Ru Pu]; [exact (points_pointer _ _ _ P)|exact (points_pointer _ _ _ Pu)]. }
    destruct Lx as [k' Pk]. apply live_lt. eapply (fr_nd _ _ _ _ _ F); eauto.
Qed.
End Frames.
