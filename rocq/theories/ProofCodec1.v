(* ProofCodec1.v - the lookup of a codec: kinds, tables, and the main invariant. *)
From Coq Require Import Relations Sorting.Permutation Sorting.Sorted.
From Coq Require String. Import String.StringSyntax.
From Verif Require Import Base Dec ModelJson ModelJsonW ModelJsonT SpecJsonT SpecCodec ModelCodec.

(* ---- kinds ---- *)
Lemma has_is d n : has d n <-> is_trait d n = true.
Proof. unfold has, is_trait. symmetry. apply smem_In. Qed.
Lemma not_has d n : is_trait d n = false -> ~ has d n.
Proof. intros H H2. apply has_is in H2. congruence. Qed.

Definition applies_b (s : side) (d : desc) (k : kind) : bool :=
  match k with
  | KBool => is_trait d (lit "bool") | KInt => is_trait d (lit "integer")
  | KFloat => is_trait d (lit "float") | KStr => is_trait d (lit "string")
  | KPtr => is_ptr d | KMap => is_trait d (lit "map") | KList => is_trait d (lit "list")
  | KCustom => negb (no_name (custom_of s d)) | KVoid => d_void d | KObj => true
  end.

Lemma applies_iff s d k : applies s d k <-> applies_b s d k = true.
Proof.
  destruct k; cbn [applies applies_b]; try apply has_is; try tauto.
  - unfold is_ptr. destruct (d_pointee d); split; intro H; try discriminate; eauto. now destruct H.
  - replace (custom s d) with (custom_of s d) by (destruct s; reflexivity).
    destruct (custom_of s d); cbn; split; intro H; congruence.
Qed.

Fixpoint firstk (s : side) (d : desc) (l : list kind) : kind :=
  match l with [] => KObj | k :: l' => if applies_b s d k then k else firstk s d l' end.

Lemma choose_first s d : choose s d = firstk s d (order s).
Proof. destruct s; reflexivity. Qed.

Lemma first_spec s d : forall l, In KObj l -> forall k,
  (exists before after, l = before ++ k :: after /\ applies s d k /\ forall k', In k' before -> ~ applies s d k') <->
  firstk s d l = k.
Proof.
  induction l as [|x l IH]; [intros []|]. intros Hin k. cbn [firstk].
  destruct (applies_b s d x) eqn:E.
  - split.
    + intros (b & af & He & _ & Hn). destruct b as [|y b]; cbn in He; injection He as -> _; [reflexivity|].
      exfalso. apply (Hn y); [now left|]. now apply applies_iff.
    + intros <-. exists [], l. split; [reflexivity|]. split; [now apply applies_iff|intros k' []].
  - assert (Hnx : ~ applies s d x) by (rewrite applies_iff; congruence).
    assert (Hin' : In KObj l).
    { destruct Hin as [->|H]; [|exact H]. discriminate E. }
    rewrite <- (IH Hin' k). split.
    + intros (b & af & He & Ha & Hn). destruct b as [|y b]; cbn in He; injection He as -> He; [contradiction|].
      exists b, af. split; [exact He|]. split; [exact Ha|]. intros k' Hk. apply Hn. now right.
    + intros (b & af & He & Ha & Hn). exists (x :: b), af. split; [now rewrite He|]. split; [exact Ha|].
      intros k' [<-|Hk]; [exact Hnx|now apply Hn].
Qed.

Lemma kind_choose s d k : codec_kind s d k <-> choose s d = k.
Proof. unfold codec_kind. rewrite choose_first. apply first_spec. destruct s; cbn; tauto. Qed.

(* ---- tables ---- *)
Definition fine (st : table) : Prop :=
  NoDup (map fst (t_cache st)) /\ NoDup (map snd (t_cache st)) /\
  (forall a, a < length (t_objs st) <-> In a (map snd (t_cache st))).

Lemma cfind_In : forall l t a, cfind t l = Some a -> In (t, a) l.
Proof.
  induction l as [|[u b] l IH]; cbn; intros t a H; [discriminate|].
  destruct (Nat.eqb t u) eqn:E; [apply Nat.eqb_eq in E; injection H as ->; subst; now left|right; auto].
Qed.
Lemma cfind_None : forall l t, cfind t l = None <-> ~ In t (map fst l).
Proof.
  induction l as [|[u b] l IH]; cbn; intros t; [tauto|].
  destruct (Nat.eqb t u) eqn:E.
  - apply Nat.eqb_eq in E. subst. split; [discriminate|tauto].
  - apply Nat.eqb_neq in E. rewrite IH. split; [intros H [H1|H1]; [congruence|tauto]|tauto].
Qed.

Lemma cached_dom st t a : cached st t a -> In t (map fst (t_cache st)).
Proof. intro H. apply in_map_iff. now exists (t, a). Qed.
Lemma cached_lt st t a : fine st -> cached st t a -> a < length (t_objs st).
Proof.
  intros (_ & _ & H) Hc. apply H. apply in_map_iff. now exists (t, a).
Qed.
Lemma nodup_fun {A} : forall (l : list (nat * A)) t a b, NoDup (map fst l) -> In (t, a) l -> In (t, b) l -> a = b.
Proof.
  induction l as [|[u c] l IH]; cbn; intros t a b Hn Ha Hb; [contradiction|].
  inversion Hn; subst.
  destruct Ha as [Ha|Ha]; destruct Hb as [Hb|Hb]; try congruence.
  - injection Ha as -> ->. exfalso. apply H1. apply in_map_iff. now exists (t, b).
  - injection Hb as -> ->. exfalso. apply H1. apply in_map_iff. now exists (t, a).
  - eauto.
Qed.
Lemma nodup_inj {A} : forall (l : list (A * nat)) t u a, NoDup (map snd l) -> In (t, a) l -> In (u, a) l -> t = u.
Proof.
  induction l as [|[v c] l IH]; cbn; intros t u a Hn Ha Hb; [contradiction|].
  inversion Hn; subst.
  destruct Ha as [Ha|Ha]; destruct Hb as [Hb|Hb]; try congruence.
  - injection Ha as -> ->. exfalso. apply H1. apply in_map_iff. now exists (u, a).
  - injection Hb as -> ->. exfalso. apply H1. apply in_map_iff. now exists (t, a).
  - eauto.
Qed.
Lemma fine_inj st t u a : fine st -> cached st t a -> cached st u a -> t = u.
Proof.
  intros (_ & H & _). now apply nodup_inj.
Qed.
Lemma fine_fun st t a b : fine st -> cached st t a -> cached st t b -> a = b.
Proof. intros [H _]. now apply nodup_fun. Qed.

Lemma set_at_length a g l : length (set_at a g l) = length l.
Proof. unfold set_at. rewrite map_length, combine_length, seq_length. lia. Qed.

Lemma nth_set_aux : forall (l : list codec) i a (g : codec -> codec) n,
  nth_error (map (fun p => if Nat.eqb (fst p) a then g (snd p) else snd p) (combine (seq i (length l)) l)) n =
  match nth_error l n with
  | Some c => Some (if Nat.eqb (i + n) a then g c else c)
  | None => None
  end.
Proof.
  induction l as [|x l IH]; intros i a g n; cbn [length seq combine map]; [now destruct n|].
  destruct n as [|n]; cbn [nth_error fst snd].
  - now rewrite Nat.add_0_r.
  - rewrite IH. now replace (S i + n) with (i + S n) by lia.
Qed.
Lemma nth_set a g l n : nth_error (set_at a g l) n =
  match nth_error l n with Some c => Some (if Nat.eqb n a then g c else c) | None => None end.
Proof. apply (nth_set_aux l 0). Qed.
Lemma nth_set_same a g l c : nth_error l a = Some c -> nth_error (set_at a g l) a = Some (g c).
Proof. intro H. now rewrite nth_set, H, Nat.eqb_refl. Qed.
Lemma nth_set_other a g l n : n <> a -> nth_error (set_at a g l) n = nth_error l n.
Proof. intro H. rewrite nth_set. apply Nat.eqb_neq in H. rewrite H. now destruct (nth_error l n). Qed.

Lemma put_fine a g st : fine st -> fine (put a g st).
Proof. intros (A & B & C). split; [exact A|]. split; [exact B|]. intro x. cbn [put t_objs t_cache]. rewrite set_at_length. apply C. Qed.

(* st' has what st has, and nothing in st was changed except perhaps at one address *)
Definition grows (st st' : table) : Prop :=
  (exists new, t_cache st' = new ++ t_cache st) /\
  (forall a, a < length (t_objs st) -> nth_error (t_objs st') a = nth_error (t_objs st) a).
Definition grows_at (x : nat) (st st' : table) : Prop :=
  (exists new, t_cache st' = new ++ t_cache st) /\
  (forall a, a < length (t_objs st) -> a <> x -> nth_error (t_objs st') a = nth_error (t_objs st) a).

Lemma grows_refl st : grows st st.
Proof. split; [now exists []|auto]. Qed.
Lemma nth_some_lt {A} (l : list A) n : n < length l -> exists c, nth_error l n = Some c.
Proof. intro H. destruct (nth_error l n) eqn:E; eauto. apply nth_error_None in E. lia. Qed.
Lemma fine_len st : fine st -> length (t_objs st) = length (t_cache st).
Proof.
  intros (_ & A & B).
  assert (H : Permutation (map snd (t_cache st)) (seq 0 (length (t_objs st)))).
  { apply NoDup_Permutation; [exact A|apply seq_NoDup|]. intro x. rewrite <- B, in_seq. lia. }
  apply Permutation_length in H. rewrite map_length, seq_length in H. now symmetry.
Qed.
Lemma grows_len st st' : (exists new, t_cache st' = new ++ t_cache st) -> fine st -> fine st' -> length (t_objs st) <= length (t_objs st').
Proof.
  intros [new Hn] A B. rewrite (fine_len _ A), (fine_len _ B), Hn, app_length. lia.
Qed.
Lemma grows_trans st1 st2 st3 : fine st1 -> fine st2 -> grows st1 st2 -> grows st2 st3 -> grows st1 st3.
Proof.
  intros F1 F2 [[n1 C1] O1] [[n2 C2] O2]. pose proof (grows_len st1 st2 (ex_intro _ n1 C1) F1 F2) as L. split.
  - exists (n2 ++ n1). now rewrite C2, C1, app_assoc.
  - intros a Ha. rewrite O2 by lia. now apply O1.
Qed.
Lemma grows_grows_at x st st' : grows st st' -> grows_at x st st'.
Proof. intros [A B]. split; auto. Qed.
Lemma grows_at_trans x st1 st2 st3 : fine st1 -> fine st2 -> grows_at x st1 st2 -> grows_at x st2 st3 -> grows_at x st1 st3.
Proof.
  intros F1 F2 [[n1 C1] O1] [[n2 C2] O2]. pose proof (grows_len st1 st2 (ex_intro _ n1 C1) F1 F2) as L. split.
  - exists (n2 ++ n1). now rewrite C2, C1, app_assoc.
  - intros a Ha Hx. rewrite O2 by (lia || assumption). now apply O1.
Qed.
Lemma grows_at_put x g st : grows_at x st (put x g st).
Proof. split; [now exists []|]. intros a _ Hx. cbn. now apply nth_set_other. Qed.
Lemma grows_cached st st' t a : (exists new, t_cache st' = new ++ t_cache st) -> cached st t a -> cached st' t a.
Proof. intros [n H] Hc. unfold cached. rewrite H. apply in_app_iff. now right. Qed.

Lemma right_mono s W st st' t c : (exists new, t_cache st' = new ++ t_cache st) -> right s W st t c -> right s W st' t c.
Proof.
  intros Hg (d & k & Hd & Hk & Hc & H). exists d, k. repeat (split; [assumption|]).
  destruct k; auto.
  - destruct H as ((i & b & H1 & H2 & H3) & H4). split; [|exact H4]. exists i, b. repeat (split; [assumption|]).
    eapply grows_cached; eauto.
  - destruct H as (i & b & H1 & H2 & H3). exists i, b. repeat (split; [assumption|]). eapply grows_cached; eauto.
  - destruct H as (i & b & H1 & H2 & H3). exists i, b. repeat (split; [assumption|]). eapply grows_cached; eauto.
  - destruct H as (H1 & H2). split; [|exact H2]. intros f Hf. destruct (H1 f Hf) as (b & Hb & Hb2). exists b.
    split; [exact Hb|]. eapply grows_cached; eauto.
Qed.

(* every cached type outside P has its finished codec *)
Definition okp (s : side) (W : list desc) (P : list nat) (st : table) : Prop :=
  fine st /\
  forall t a, cached st t a -> ~ In t P -> exists c, nth_error (t_objs st) a = Some c /\ right s W st t c.

Lemma complete_iff s W st : complete s W st <-> okp s W [] st /\ forall t a, cached st t a -> well s W t.
Proof.
  split.
  - intros (A & B & C & D). split; [split; [split; [exact A|now split]|]|].
    + intros t a H _. now apply D.
    + intros t a H. now apply (D t a).
  - intros [[(A & B & C) D] E]. repeat (split; [assumption|]). intros t a H. split; [now apply (E t a)|]. apply D; auto.
Qed.

Lemma reach_refl s W t : reach s W t t.
Proof. apply rt_refl. Qed.
Lemma reach_step s W t u v : refers s W t u -> reach s W u v -> reach s W t v.
Proof. intros H1 H2. eapply rt_trans; [apply rt_step; exact H1|exact H2]. Qed.

(* the types not yet cached *)
Definition fresh_types (W : list desc) (st : table) : list nat :=
  filter (fun t => match cfind t (t_cache st) with None => true | Some _ => false end) (seq 0 (length W)).

Lemma filter_le {A} (f g : A -> bool) : forall l, (forall x, In x l -> f x = true -> g x = true) ->
  length (filter f l) <= length (filter g l).
Proof.
  induction l as [|x l IH]; cbn; intros H; [lia|].
  assert (IH' : length (filter f l) <= length (filter g l)) by (apply IH; intros; apply H; auto).
  destruct (f x) eqn:E; [rewrite (H x (or_introl eq_refl) E); cbn; lia|destruct (g x); cbn; lia].
Qed.
Lemma filter_lt {A} (f g : A -> bool) y : forall l, (forall x, In x l -> f x = true -> g x = true) ->
  In y l -> f y = false -> g y = true -> length (filter f l) < length (filter g l).
Proof.
  induction l as [|x l IH]; cbn; intros H Hi Hf Hg; [contradiction|].
  destruct Hi as [->|Hi].
  - rewrite Hf, Hg. cbn. assert (length (filter f l) <= length (filter g l)) by (apply filter_le; auto). lia.
  - assert (IH' : length (filter f l) < length (filter g l)) by (apply IH; auto).
    destruct (f x) eqn:E; [rewrite (H x (or_introl eq_refl) E); cbn; lia|destruct (g x); cbn; lia].
Qed.

Lemma fresh_grows W st st' : (exists new, t_cache st' = new ++ t_cache st) -> length (fresh_types W st') <= length (fresh_types W st).
Proof.
  intros [n Hn]. apply filter_le. intros x _ H.
  destruct (cfind x (t_cache st')) eqn:E; [discriminate|]. apply cfind_None in E.
  destruct (cfind x (t_cache st)) eqn:E2; [|reflexivity]. apply cfind_In in E2. exfalso. apply E.
  rewrite Hn, map_app. apply in_app_iff. right. apply in_map_iff. eexists; split; [|exact E2]. reflexivity.
Qed.
Lemma fresh_enter W st t a o : t < length W -> cfind t (t_cache st) = None ->
  length (fresh_types W (mkT ((t, a) :: t_cache st) o)) < length (fresh_types W st).
Proof.
  intros Ht Hc. apply filter_lt with (y := t).
  - intros x _. cbn [t_cache cfind]. destruct (Nat.eqb x t); [discriminate|auto].
  - apply in_seq. lia.
  - cbn [t_cache cfind]. now rewrite Nat.eqb_refl.
  - now rewrite Hc.
Qed.
