(* PropValOwn.v - C64: the object behind a stored Value lives exactly as long as
   the handles that share it. *)
From Verif Require Import Base ModelValOwn.

Definition own_list (o : option block) : list block := match o with Some b => [b] | None => [] end.
Definition owns (l : list (nat * handle)) : list block := flat_map (fun p => own_list (h_own (snd p))) l.
Notation cnt := (count_occ Nat.eq_dec).

(* P: references held by temporaries in the middle of an operation *)
Record Inv (st : vstate) (P : list block) : Prop := {
  i_nodup : NoDup (map fst (v_live st));
  i_next : forall h, In h (map fst (v_live st)) -> h < v_next st;
  i_cnt : forall b, count_of st b = cnt (owns (v_live st)) b + cnt P b;
  i_fnodup : NoDup (map fst (v_freed st));
  i_freed : forall b, In b (map fst (v_freed st)) <-> b < length (v_cells st) /\ count_of st b = 0;
  i_type : forall b T, In (b, T) (v_freed st) -> exists c, nth_error (v_cells st) b = Some c /\ c_type c = T;
  i_del : Forall (fun c => c_deleter c = c_type c) (v_cells st);
  i_at : forall h r b, In (h, r) (v_live st) -> h_own r = Some b -> h_at r = Some (Inside b 0%N);
  i_log : Forall (fun a => ac_stored a = true -> ac_dead a = false) (v_log st) }.

Lemma init_inv : Inv vinit [].
Proof.
  constructor; cbn; try tauto; try constructor; try tauto.
  - intro b. unfold count_of. cbn. now destruct b.
  - intros [? _]. lia.
Qed.

(* ----- set_count ----- *)
Lemma length_set_count l b n : length (set_count l b n) = length l.
Proof. revert b; induction l as [|c l IH]; intros [|b]; cbn; auto. Qed.
Lemma nth_set_same l b n c : nth_error l b = Some c -> nth_error (set_count l b n) b = Some (Cell (c_type c) (c_deleter c) n).
Proof. revert b; induction l as [|x l IH]; intros [|b]; cbn; intro E; try discriminate; auto. now injection E as ->. Qed.
Lemma nth_set_other l b b' n : b <> b' -> nth_error (set_count l b n) b' = nth_error l b'.
Proof. revert b b'; induction l as [|x l IH]; intros [|b] [|b'] N; cbn; auto; try congruence. Qed.
Lemma Forall_set_count l b n : Forall (fun c => c_deleter c = c_type c) l -> Forall (fun c => c_deleter c = c_type c) (set_count l b n).
Proof. revert b; induction l as [|x l IH]; intros [|b] F; inversion F; subst; cbn; constructor; auto. Qed.

(* ----- the table of live handles ----- *)
Lemma hfind_In h l r : hfind h l = Some r -> In (h, r) l.
Proof.
  induction l as [|[k x] l IH]; cbn; [discriminate|]. destruct (Nat.eqb_spec k h) as [->|]; intro E.
  - injection E as ->. auto.
  - auto.
Qed.
Lemma in_map_fst (h : nat) (r : handle) l : In (h, r) l -> In h (map fst l).
Proof. intro I. exact (in_map fst _ _ I). Qed.
Lemma fst_hset h r l : map fst (hset h r l) = map fst l.
Proof.
  unfold hset. rewrite map_map. apply map_ext. intros [k x]; cbn. now destruct (Nat.eqb_spec k h) as [->|].
Qed.
Lemma hset_other h r l : ~ In h (map fst l) -> hset h r l = l.
Proof.
  intro N. unfold hset. rewrite <- (map_id l) at 2. apply map_ext_in. intros [k x] I; cbn.
  destruct (Nat.eqb_spec k h) as [->|]; auto. elim N. now apply in_map_fst in I.
Qed.
Lemma cnt_app (l1 l2 : list block) b : cnt (l1 ++ l2) b = cnt l1 b + cnt l2 b.
Proof. apply count_occ_app. Qed.
Lemma owns_hset h r r' l b : NoDup (map fst l) -> hfind h l = Some r ->
  cnt (owns (hset h r' l)) b + cnt (own_list (h_own r)) b = cnt (owns l) b + cnt (own_list (h_own r')) b.
Proof.
  induction l as [|[k x] l IH]; cbn [hfind]; [discriminate|]. cbn [map fst]. intros N E. inversion N; subst.
  unfold owns in *. cbn [hset map flat_map fst]. destruct (Nat.eqb_spec k h) as [->|Ne].
  - injection E as ->. fold (hset h r' l). rewrite hset_other by assumption. cbn [snd]. rewrite !cnt_app. lia.
  - fold (hset h r' l). cbn [snd]. rewrite !cnt_app. specialize (IH H2 E). lia.
Qed.
Lemma owns_hdel h r l b : NoDup (map fst l) -> hfind h l = Some r ->
  cnt (owns (hdel h l)) b + cnt (own_list (h_own r)) b = cnt (owns l) b.
Proof.
  induction l as [|[k x] l IH]; cbn [hfind]; [discriminate|]. cbn [map fst]. intros N E. inversion N; subst.
  unfold owns in *. cbn [hdel filter flat_map fst]. destruct (Nat.eqb_spec k h) as [->|Ne]; cbn [negb].
  - injection E as ->. fold (hdel h l). assert (Q : hdel h l = l).
    { unfold hdel. clear -H1. induction l as [|[k y] l IH]; cbn in *; auto.
      destruct (Nat.eqb_spec k h) as [->|]; cbn; [tauto|]. f_equal. apply IH. tauto. }
    rewrite Q. cbn [snd]. rewrite cnt_app. lia.
  - fold (hdel h l). cbn [flat_map snd]. rewrite !cnt_app. specialize (IH H2 E). lia.
Qed.
Lemma hdel_incl h l p : In p (hdel h l) -> In p l.
Proof. unfold hdel. rewrite filter_In. tauto. Qed.
Lemma NoDup_hdel h l : NoDup (map fst l) -> NoDup (map fst (hdel h l)).
Proof.
  induction l as [|[k x] l IH]; cbn; intro N; [constructor|]. inversion N; subst.
  destruct (Nat.eqb_spec k h); cbn; auto. constructor; auto. intro C. apply H1.
  apply in_map_iff in C as (p & E & I). apply in_map_iff. exists p. split; auto. eapply hdel_incl; eauto.
Qed.
Lemma In_hset h r l p : In p (hset h r l) -> p = (h, r) \/ (In p l /\ fst p <> h).
Proof.
  unfold hset. rewrite in_map_iff. intros ([k x] & E & I). cbn in E. destruct (Nat.eqb_spec k h) as [->|]; subst; auto.
Qed.
Lemma owns_In h r l b : In (h, r) l -> h_own r = Some b -> In b (owns l).
Proof. intros I E. unfold owns. apply in_flat_map. exists (h, r). split; auto. cbn. rewrite E. cbn. auto. Qed.
Lemma In_owns l b : In b (owns l) -> exists h r, In (h, r) l /\ h_own r = Some b.
Proof.
  unfold owns. rewrite in_flat_map. intros ([h r] & I & E). exists h, r. split; auto. cbn in E.
  destruct (h_own r); cbn in E; [|tauto]. destruct E as [->|[]]. reflexivity.
Qed.

Lemma count_lt st b : count_of st b > 0 -> b < length (v_cells st).
Proof.
  unfold count_of. destruct (nth_error (v_cells st) b) as [c|] eqn:E; [|lia]. intros _. apply nth_error_Some. congruence.
Qed.

(* ----- the pieces operations are made of ----- *)
Lemma retain_inv st P o : Inv st P -> (forall b, o = Some b -> count_of st b > 0) -> Inv (retain st o) (own_list o ++ P).
Proof.
  intros [A B C D F G K L M] Pos. destruct o as [b|]; [|now constructor].
  specialize (Pos b eq_refl). pose proof (count_lt _ _ Pos) as Hb. cbn [retain own_list app].
  assert (Q : forall b', count_of (retain st (Some b)) b' = if Nat.eq_dec b b' then S (count_of st b) else count_of st b').
  { intro b'. unfold count_of at 1. cbn. destruct (Nat.eq_dec b b') as [<-|N].
    - destruct (nth_error (v_cells st) b) as [c|] eqn:E; [|apply nth_error_None in E; lia].
      now rewrite (nth_set_same _ _ _ _ E).
    - now rewrite nth_set_other. }
  cbn [retain] in Q. constructor; cbn [v_live v_next v_cells v_freed v_log]; auto.
  - intro b'. rewrite Q. cbn [count_occ]. specialize (C b'). destruct (Nat.eq_dec b b') as [<-|]; lia.
  - intro b'. rewrite Q, length_set_count, F. destruct (Nat.eq_dec b b') as [<-|]; [|tauto]. split; intros [? ?]; lia.
  - intros b' T I. destruct (G _ _ I) as (c & E & ET). destruct (Nat.eq_dec b b') as [<-|N].
    + rewrite (nth_set_same _ _ _ _ E). eauto.
    + rewrite nth_set_other by auto. eauto.
  - now apply Forall_set_count.
Qed.

Lemma release_inv st P o : Inv st (own_list o ++ P) -> Inv (release st o) P.
Proof.
  destruct o as [b|]; [|auto]. intros [A B C D F G K L M]. cbn [own_list app] in C. cbn [release].
  assert (Pos : count_of st b > 0). { rewrite C. cbn. destruct (Nat.eq_dec b b); [lia|congruence]. }
  destruct (nth_error (v_cells st) b) as [c|] eqn:E; [|unfold count_of in Pos; rewrite E in Pos; lia].
  assert (Cb : count_of st b = c_count c) by (unfold count_of; now rewrite E).
  set (st' := VState _ _ _ _ _).
  assert (Q : forall b', count_of st' b' = if Nat.eq_dec b b' then c_count c - 1 else count_of st b').
  { intro b'. unfold count_of at 1. cbn. destruct (Nat.eq_dec b b') as [<-|N].
    - now rewrite (nth_set_same _ _ _ _ E).
    - now rewrite nth_set_other. }
  assert (NF : ~ In b (map fst (v_freed st))) by (rewrite F; lia).
  constructor; cbn [v_live v_next v_cells v_freed v_log st']; auto.
  - intro b'. rewrite Q. specialize (C b'). cbn [count_occ] in C. destruct (Nat.eq_dec b b') as [<-|]; lia.
  - destruct (Nat.eqb (c_count c) 1); auto. rewrite map_app. cbn [map fst].
    apply NoDup_Add with (a := b) (l := map fst (v_freed st)); [|split; auto].
    replace (map fst (v_freed st)) with (map fst (v_freed st) ++ []) at 1 by apply app_nil_r. apply Add_app.
  - intro b'. rewrite Q, length_set_count. destruct (Nat.eqb_spec (c_count c) 1) as [E1|E1].
    + rewrite map_app, in_app_iff, F. cbn. destruct (Nat.eq_dec b b') as [<-|N].
      * split; [intros _; split; [apply nth_error_Some; congruence|lia]|auto].
      * intuition.
    + rewrite F. destruct (Nat.eq_dec b b') as [<-|N]; [|tauto]. split; intros [? ?]; [lia|]. lia.
  - intros b' T I. assert (I' : In (b', T) (v_freed st) \/ (b' = b /\ T = c_deleter c)).
    { destruct (Nat.eqb (c_count c) 1); auto. apply in_app_iff in I as [?|[I|[]]]; auto. injection I as <- <-. auto. }
    destruct I' as [I'|(-> & ->)].
    + destruct (G _ _ I') as (c' & E' & ET). destruct (Nat.eq_dec b b') as [<-|N].
      * rewrite (nth_set_same _ _ _ _ E'). eauto.
      * rewrite nth_set_other by auto. eauto.
    + rewrite (nth_set_same _ _ _ _ E). eexists. split; [reflexivity|]. cbn. symmetry.
      rewrite Forall_forall in K. apply K. eapply nth_error_In; eauto.
  - now apply Forall_set_count.
Qed.

Definition good (r : handle) : Prop := forall b, h_own r = Some b -> h_at r = Some (Inside b 0%N).

Lemma push_inv st P r : Inv st (own_list (h_own r) ++ P) -> good r -> Inv (push st r) P.
Proof.
  intros [A B C D F G K L M] Gr. constructor; cbn [push v_live v_next v_cells v_freed v_log map fst]; auto.
  - constructor; auto. intro I. apply B in I. lia.
  - intros h [<-|I]; [lia|]. apply B in I. lia.
  - intro b. unfold count_of in *. cbn [with_live push v_cells]. rewrite C. unfold owns. cbn [flat_map snd]. rewrite !cnt_app. lia.
  - intros h r' b [E|I] Eo; [injection E as <- <-; auto|eauto].
Qed.

Lemma hset_inv st P h r r' : Inv st (own_list (h_own r') ++ P) -> hfind h (v_live st) = Some r -> good r' ->
  Inv (with_live st (hset h r' (v_live st))) (own_list (h_own r) ++ P).
Proof.
  intros [A B C D F G K L M] E Gr. constructor; cbn [with_live v_live v_next v_cells v_freed v_log]; auto.
  - now rewrite fst_hset.
  - intro k. rewrite fst_hset. auto.
  - intro b. pose proof (owns_hset h r r' _ b A E). specialize (C b). unfold count_of in *. cbn [with_live push v_cells].
    rewrite cnt_app in C. rewrite cnt_app. lia.
  - intros k x b I Eo. apply In_hset in I as [Q|(I & _)]; [injection Q as -> ->; auto|eauto].
Qed.

Lemma hdel_inv st P h r : Inv st P -> hfind h (v_live st) = Some r ->
  Inv (with_live st (hdel h (v_live st))) (own_list (h_own r) ++ P).
Proof.
  intros [A B C D F G K L M] E. constructor; cbn [with_live v_live v_next v_cells v_freed v_log]; auto.
  - now apply NoDup_hdel.
  - intros k I. apply B. apply in_map_iff in I as (p & Ep & I). apply in_map_iff. exists p. split; auto. eapply hdel_incl; eauto.
  - intro b. pose proof (owns_hdel h r _ b A E). specialize (C b). unfold count_of in *. cbn [with_live push v_cells]. rewrite cnt_app. lia.
  - intros k x b I Eo. apply hdel_incl in I. eauto.
Qed.

Lemma store_inv st P T : Inv st P -> Inv (store st T) P.
Proof.
  intros [A B C D F G K L M]. unfold store. apply push_inv.
  2: { intros b E. cbn in *. now injection E as <-. }
  cbn [h_own own_list app].
  assert (Q : forall b, match nth_error (v_cells st ++ [Cell T T 1]) b with Some c => c_count c | None => 0 end =
    if Nat.eq_dec (length (v_cells st)) b then 1 else count_of st b).
  { intro b. unfold count_of. destruct (Nat.eq_dec (length (v_cells st)) b) as [<-|N].
    - rewrite nth_error_app2, Nat.sub_diag by lia. reflexivity.
    - destruct (Nat.lt_ge_cases b (length (v_cells st))) as [Lt|Ge].
      + now rewrite nth_error_app1.
      + rewrite !(proj2 (nth_error_None _ _)); auto. rewrite app_length; cbn; lia. }
  assert (Z : count_of st (length (v_cells st)) = 0).
  { unfold count_of. rewrite (proj2 (nth_error_None _ _)); auto. }
  constructor; cbn [v_live v_next v_cells v_freed v_log]; auto.
  - intro b. unfold count_of in *. cbn [with_live push v_cells]. rewrite Q. specialize (C b). cbn [count_occ].
    destruct (Nat.eq_dec (length (v_cells st)) b) as [<-|]; lia.
  - intro b. unfold count_of at 1. cbn [v_cells]. rewrite Q, app_length, F. cbn.
    destruct (Nat.eq_dec (length (v_cells st)) b) as [<-|]; split; intros [? ?]; lia.
  - intros b T' I. destruct (G _ _ I) as (c & E & ET). exists c. split; auto. rewrite nth_error_app1; auto.
    apply nth_error_Some. congruence.
  - apply Forall_app. split; auto.
Qed.

Lemma live_count st P h r b : Inv st P -> hfind h (v_live st) = Some r -> h_own r = Some b -> count_of st b > 0.
Proof.
  intros V E Eo. rewrite (i_cnt _ _ V). pose proof (owns_In _ _ _ _ (hfind_In _ _ _ E) Eo) as I.
  apply (count_occ_In Nat.eq_dec) in I. lia.
Qed.

Lemma live_good st P h r : Inv st P -> hfind h (v_live st) = Some r -> good r.
Proof. intros V E b Eo. eapply i_at; eauto. eapply hfind_In; eauto. Qed.

Lemma copy_handle_inv st P h r : Inv st P -> hfind h (v_live st) = Some r -> Inv (copy_handle st r) P.
Proof.
  intros V E. unfold copy_handle. apply push_inv; cbn [h_own].
  - apply retain_inv; auto. intros b Eo. eapply live_count; eauto.
  - exact (live_good _ _ _ _ V E).
Qed.

Lemma touch_inv st P r st' : Inv st P -> good r -> (forall b, h_own r = Some b -> count_of st b > 0) ->
  touch st r = Ok st' -> Inv st' P.
Proof.
  intros V Gr Pos E. destruct V as [A B C D F G K L M]. unfold touch in E. destruct (h_at r) as [[o|b o]|] eqn:Ea; [| |discriminate].
  - injection E as <-. constructor; cbn [v_live v_next v_cells v_freed v_log]; auto. apply Forall_app. split; auto.
  - injection E as <-. constructor; cbn [v_live v_next v_cells v_freed v_log]; auto. apply Forall_app. split; auto.
    constructor; [|constructor]. cbn. intro S. destruct (h_own r) as [b'|] eqn:Eo; [|discriminate].
    assert (b' = b) as -> by (specialize (Gr _ Eo); congruence).
    specialize (Pos b eq_refl). destruct (existsb _ _) eqn:X; auto. apply existsb_exists in X as (y & I & Ey).
    apply Nat.eqb_eq in Ey. subst y. apply F in I. lia.
Qed.

Lemma get_handle_Ok st h r : get_handle st h = Ok r -> hfind h (v_live st) = Some r.
Proof. unfold get_handle. destruct (hfind h (v_live st)); congruence. Qed.

Lemma hfind_hset_other h k r l : h <> k -> hfind h (hset k r l) = hfind h l.
Proof.
  intro N. induction l as [|[x y] l IH]; cbn; auto. destruct (Nat.eqb_spec x k) as [->|]; cbn.
  - destruct (Nat.eqb_spec k h); [congruence|auto].
  - destruct (Nat.eqb_spec x h); auto.
Qed.
Lemma retain_live st o : v_live (retain st o) = v_live st.
Proof. now destruct o. Qed.
Lemma release_live st o : v_live (release st o) = v_live st.
Proof. destruct o as [b|]; cbn; auto. now destruct (nth_error (v_cells st) b). Qed.
Lemma release_next st o : v_next (release st o) = v_next st.
Proof. destruct o as [b|]; cbn; auto. now destruct (nth_error (v_cells st) b). Qed.
Lemma retain_next st o : v_next (retain st o) = v_next st.
Proof. now destruct o. Qed.
Lemma touch_live st r st' : touch st r = Ok st' -> v_live st' = v_live st /\ v_next st' = v_next st.
Proof. unfold touch. destruct (h_at r) as [[|]|]; intro E; try discriminate; injection E as <-; auto. Qed.
Lemma touch_cells st r st' : touch st r = Ok st' -> v_cells st' = v_cells st.
Proof. unfold touch. destruct (h_at r) as [[|]|]; intro E; try discriminate; injection E as <-; auto. Qed.
Lemma retain_cells st o : length (v_cells (retain st o)) = length (v_cells st).
Proof. destruct o; cbn; auto. apply length_set_count. Qed.
Lemma release_cells st o : length (v_cells (release st o)) = length (v_cells st).
Proof. destruct o as [b|]; cbn; auto. destruct (nth_error (v_cells st) b); cbn; auto. apply length_set_count. Qed.
Lemma good_unowned T a : good (Handle T a None).
Proof. intros b E. discriminate. Qed.

Lemma vstep_inv st op st' : Inv st [] -> vstep st op = Ok st' -> Inv st' [].
Proof.
  intros V E. destruct op as [|obj T|T|s|s|d s|d s|s|s|s T off|s|s|s|s]; cbn [vstep] in E.
  - injection E as <-. apply push_inv; [exact V|apply good_unowned].
  - injection E as <-. apply push_inv; [exact V|apply good_unowned].
  - injection E as <-. now apply store_inv.
  - apply bind_Ok in E as (r & Er & E). injection E as <-. apply get_handle_Ok in Er. eapply copy_handle_inv; eauto.
  - apply bind_Ok in E as (r & Er & E). injection E as <-. apply get_handle_Ok in Er.
    apply push_inv; [|exact (live_good _ _ _ _ V Er)].
    apply (hset_inv st [] s r (Handle (h_type r) (h_at r) None)); auto. apply good_unowned.
  - destruct (Nat.eqb_spec d s); [now injection E as <-|].
    apply bind_Ok in E as (rd & Ed & E). apply bind_Ok in E as (rs & Es & E). injection E as <-.
    apply get_handle_Ok in Ed. apply get_handle_Ok in Es. apply release_inv.
    apply (hset_inv _ [] d rd (Handle (h_type rs) (h_at rs) (h_own rs))).
    + cbn [h_own]. apply retain_inv; auto. intros b Eo. eapply live_count; eauto.
    + now rewrite retain_live.
    + exact (live_good _ _ _ _ V Es).
  - destruct (Nat.eqb_spec d s) as [|N]; [now injection E as <-|].
    apply bind_Ok in E as (rd & Ed & E). apply bind_Ok in E as (rs & Es & E). injection E as <-.
    apply get_handle_Ok in Ed. apply get_handle_Ok in Es. apply release_inv.
    (* as if the source were emptied first: same table *)
    set (e := Handle (h_type rs) (h_at rs) None).
    assert (Q : hset s e (hset d rs (v_live st)) = hset d rs (hset s e (v_live st))).
    { unfold hset. rewrite !map_map. apply map_ext. intros [k x]; cbn.
      destruct (Nat.eqb_spec k d) as [->|Nk]; cbn.
      - destruct (Nat.eqb_spec d s); [congruence|]. cbn. now rewrite Nat.eqb_refl.
      - destruct (Nat.eqb_spec k s) as [->|Nk']; cbn.
        + destruct (Nat.eqb_spec s d); [congruence|auto].
        + destruct (Nat.eqb_spec k d); [congruence|auto]. }
    rewrite Q. pose proof (hset_inv st [] s rs e V Es (good_unowned _ _)) as V1.
    apply (hset_inv _ [] d rd rs) in V1; auto.
    + cbn. rewrite hfind_hset_other; auto.
    + exact (live_good _ _ _ _ V Es).
  - apply bind_Ok in E as (r & Er & E). injection E as <-. apply get_handle_Ok in Er. eapply copy_handle_inv; eauto.
  - apply bind_Ok in E as (r & Er & E). injection E as <-. apply get_handle_Ok in Er. eapply copy_handle_inv; eauto.
  - apply bind_Ok in E as (r & Er & E). destruct (h_at r) as [[o|b o]|]; [| |discriminate]; injection E as <-;
      (apply push_inv; [exact V|apply good_unowned]).
  - apply bind_Ok in E as (r & Er & E). apply bind_Ok in E as (s1 & E1 & E). injection E as <-. apply get_handle_Ok in Er.
    apply store_inv. eapply touch_inv; [exact V| | |exact E1]; [exact (live_good _ _ _ _ V Er)|].
    intros b Eo. eapply live_count; eauto.
  - apply bind_Ok in E as (r & Er & E). cbv zeta in E. apply bind_Ok in E as (s4 & E4 & E). injection E as <-.
    apply get_handle_Ok in Er. pose proof (copy_handle_inv _ _ _ _ V Er) as V1.
    assert (Lt : s < v_next st). { apply (i_next _ _ V). apply in_map_fst with (r := r). now apply hfind_In. }
    set (st1 := copy_handle st r) in *.
    assert (L1 : v_live st1 = (v_next st, r) :: v_live st).
    { unfold st1, copy_handle, push. cbn. rewrite retain_live, retain_next. now destruct r. }
    assert (F1 : hfind s (v_live st1) = Some r).
    { rewrite L1. cbn. destruct (Nat.eqb_spec (v_next st) s); [lia|auto]. }
    pose proof (hset_inv st1 [] s r empty_handle V1 F1 (good_unowned _ _)) as V2.
    set (st2 := with_live st1 (hset s empty_handle (v_live st1))) in *.
    pose proof (release_inv st2 [] (h_own r) V2) as V3. set (st3 := release st2 (h_own r)) in *.
    assert (F3 : hfind (v_next st) (v_live st3) = Some r).
    { unfold st3. rewrite release_live. cbn [st2 with_live v_live]. rewrite L1. cbn.
      destruct (Nat.eqb_spec (v_next st) s); [lia|]. cbn. now rewrite Nat.eqb_refl. }
    assert (V4 : Inv s4 []).
    { eapply touch_inv; [exact V3| | |exact E4]; [exact (live_good _ _ _ _ V Er)|]. intros b Eo. eapply live_count; eauto. }
    apply touch_live in E4 as (L4 & N4). pose proof (store_inv s4 [] (h_type r) V4) as V5.
    unfold destroy. apply release_inv. apply hdel_inv; auto. cbn. rewrite N4, L4.
    destruct (Nat.eqb_spec (v_next st3) (v_next st)) as [Q|]; auto. exfalso.
    unfold st3 in Q. rewrite release_next in Q. cbn in Q. rewrite retain_next in Q. lia.
  - apply bind_Ok in E as (r & Er & E). apply get_handle_Ok in Er. eapply touch_inv; [exact V| | |exact E];
      [exact (live_good _ _ _ _ V Er)|]. intros b Eo. eapply live_count; eauto.
  - apply bind_Ok in E as (r & Er & E). injection E as <-. apply get_handle_Ok in Er. unfold destroy.
    apply release_inv. now apply hdel_inv.
Qed.

Lemma vrun_inv ops : forall st st', Inv st [] -> vrun st ops = Ok st' -> Inv st' [].
Proof.
  induction ops as [|op ops IH]; intros st st' V E; cbn [vrun] in E; [now injection E as <-|].
  apply bind_Ok in E as (s1 & E1 & E2). eapply IH; [|exact E2]. eapply vstep_inv; eauto.
Qed.

Lemma zero_owners st b : Inv st [] -> count_of st b = 0 <-> ~ exists h r, In (h, r) (v_live st) /\ h_own r = Some b.
Proof.
  intro V. rewrite (i_cnt _ _ V). cbn [count_occ]. split.
  - intros Z (h & r & I & E). pose proof (owns_In _ _ _ _ I E) as C. apply (count_occ_In Nat.eq_dec) in C. lia.
  - intro N. enough (cnt (owns (v_live st)) b = 0) by lia. apply count_occ_not_In. intro C. apply N. now apply In_owns.
Qed.

(* ===== C64 ===== *)
(* At every point of every history: an allocated object has been deleted exactly
   when no live Value shares its storage. *)
Theorem c64_lives_as_long_as_its_handles : forall ops st, vrun vinit ops = Ok st ->
  forall b, b < length (v_cells st) ->
  (In b (map fst (v_freed st)) <-> ~ exists h r, In (h, r) (v_live st) /\ h_own r = Some b).
Proof.
  intros ops st E b Hb. pose proof (vrun_inv _ _ _ init_inv E) as V. rewrite (i_freed _ _ V), <- zero_owners by exact V. tauto.
Qed.
Print Assumptions c64_lives_as_long_as_its_handles.

(* Nothing is deleted twice, nothing that was not allocated is deleted, and the
   destructor that runs is that of the type the object was made with. *)
Theorem c64_deleted_once_as_what_it_is : forall ops st, vrun vinit ops = Ok st ->
  NoDup (map fst (v_freed st)) /\
  forall b T, In (b, T) (v_freed st) -> exists c, nth_error (v_cells st) b = Some c /\ c_type c = T.
Proof.
  intros ops st E. pose proof (vrun_inv _ _ _ init_inv E) as V. split; [apply V|apply (i_type _ _ V)].
Qed.
Print Assumptions c64_deleted_once_as_what_it_is.

(* Nothing leaks: when the last Value is gone every object is deleted. *)
Theorem c64_nothing_leaks : forall ops st, vrun vinit ops = Ok st -> v_live st = [] ->
  forall b, b < length (v_cells st) -> In b (map fst (v_freed st)).
Proof.
  intros ops st E L b Hb. apply (c64_lives_as_long_as_its_handles _ _ E); auto. intros (h & r & I & _). rewrite L in I. contradiction.
Qed.
Print Assumptions c64_nothing_leaks.

(* No access through a stored handle reaches a deleted object; and a stored handle
   designates the very object it keeps alive. *)
Theorem c64_stored_access_is_safe : forall ops st, vrun vinit ops = Ok st ->
  (forall a, In a (v_log st) -> ac_stored a = true -> ac_dead a = false) /\
  (forall h r b, In (h, r) (v_live st) -> h_own r = Some b -> h_at r = Some (Inside b 0%N) /\ ~ In b (map fst (v_freed st))).
Proof.
  intros ops st E. pose proof (vrun_inv _ _ _ init_inv E) as V. split.
  - intros a I. pose proof (i_log _ _ V) as F. rewrite Forall_forall in F. auto.
  - intros h r b I Eo. split; [eapply i_at; eauto|]. rewrite (i_freed _ _ V). intros (_ & Z).
    apply (zero_owners st b V) in Z. apply Z. eauto.
Qed.
Print Assumptions c64_stored_access_is_safe.

(* Any other handle into a stored object - a field, a reference result, a handle
   that was moved from - is as good as the remaining stored handles: the access is
   safe exactly if one of them is alive. *)
Theorem c64_view_access : forall ops st h r b off st', vrun vinit ops = Ok st ->
  get_handle st h = Ok r -> h_at r = Some (Inside b off) -> vstep st (VAccess h) = Ok st' ->
  exists a, v_log st' = v_log st ++ [a] /\ ac_block a = Some b /\
    (b < length (v_cells st) -> (ac_dead a = false <-> exists h' r', In (h', r') (v_live st) /\ h_own r' = Some b)).
Proof.
  intros ops st h r b off st' E Eh Ea E2. pose proof (vrun_inv _ _ _ init_inv E) as V. cbn [vstep] in E2.
  apply bind_Ok in E2 as (r' & Er & E2). assert (r' = r) as -> by congruence. unfold touch in E2. rewrite Ea in E2.
  injection E2 as <-. eexists. split; [reflexivity|]. split; [reflexivity|]. cbn [ac_dead]. intro Hb.
  destruct (existsb _ _) eqn:X.
  - apply existsb_exists in X as (y & I & Ey). apply Nat.eqb_eq in Ey. subst y. apply (i_freed _ _ V) in I as (_ & Z).
    apply (zero_owners st b V) in Z. split; [discriminate|]. intro C. contradiction.
  - split; auto. intros _. destruct (in_dec Nat.eq_dec b (owns (v_live st))) as [I|N]; [now apply In_owns|]. exfalso.
    assert (In b (map fst (v_freed st))) as I.
    { apply (i_freed _ _ V). split; auto. rewrite (i_cnt _ _ V). apply (count_occ_not_In Nat.eq_dec) in N. rewrite N. reflexivity. }
    assert (existsb (Nat.eqb b) (map fst (v_freed st)) = true); [|congruence].
    apply existsb_exists. exists b. split; auto. apply Nat.eqb_refl.
Qed.
Print Assumptions c64_view_access.

(* copy() and move() give a stored handle onto an object of its own, of the same
   type; after move() the source is a void handle. *)
Theorem c64_copy_is_separate : forall ops st s r st', vrun vinit ops = Ok st -> get_handle st s = Ok r -> vstep st (VCopy s) = Ok st' ->
  exists h b, In (h, Handle (h_type r) (Some (Inside b 0%N)) (Some b)) (v_live st') /\
    b < length (v_cells st') /\
    (forall h' r', In (h', r') (v_live st') -> h_own r' = Some b -> h' = h) /\ get_handle st' s = Ok r.
Proof.
  intros ops st s r st' E Er E2. pose proof (vrun_inv _ _ _ init_inv E) as V. cbn [vstep] in E2.
  apply bind_Ok in E2 as (r' & Er' & E2). assert (r' = r) as -> by congruence.
  apply bind_Ok in E2 as (s1 & E1 & E2). injection E2 as <-. pose proof (touch_live _ _ _ E1) as (L1 & N1).
  assert (Lc : v_cells s1 = v_cells st). { unfold touch in E1. destruct (h_at r) as [[|]|]; try discriminate; now injection E1 as <-. }
  exists (v_next st), (length (v_cells st)). cbn. rewrite L1, N1, Lc. split; [auto|]. split; [rewrite app_length; cbn; lia|]. split.
  - intros h' r' [Q|I] Eo; [now injection Q as <-|]. exfalso.
    pose proof (owns_In _ _ _ _ I Eo) as C. apply (count_occ_In Nat.eq_dec) in C.
    assert (Z : count_of st (length (v_cells st)) = 0) by (unfold count_of; rewrite (proj2 (nth_error_None _ _)); auto).
    rewrite (i_cnt _ _ V) in Z. cbn in Z. lia.
  - apply get_handle_Ok in Er. unfold get_handle. cbn. rewrite L1, N1.
    destruct (Nat.eqb_spec (v_next st) s) as [Q|]; [|now rewrite Er]. exfalso.
    assert (s < v_next st) by (apply (i_next _ _ V); apply in_map_fst with (r := r); now apply hfind_In). lia.
Qed.
Print Assumptions c64_copy_is_separate.

Theorem c64_move_empties_its_source : forall ops st s r st', vrun vinit ops = Ok st -> get_handle st s = Ok r -> vstep st (VMove s) = Ok st' ->
  get_handle st' s = Ok empty_handle /\
  exists h b, In (h, Handle (h_type r) (Some (Inside b 0%N)) (Some b)) (v_live st') /\ b = length (v_cells st) /\ h <> s.
Proof.
  intros ops st s r st' E Er E2. pose proof (vrun_inv _ _ _ init_inv E) as V. cbn [vstep] in E2.
  apply bind_Ok in E2 as (r' & Er' & E2). assert (r' = r) as -> by congruence. cbv zeta in E2.
  apply bind_Ok in E2 as (s4 & E4 & E2). injection E2 as <-. apply get_handle_Ok in Er.
  assert (Lt : s < v_next st) by (apply (i_next _ _ V); apply in_map_fst with (r := r); now apply hfind_In).
  pose proof (touch_live _ _ _ E4) as (L4 & N4). rewrite release_live in L4. rewrite release_next in N4.
  assert (Lc : length (v_cells s4) = length (v_cells st)).
  { rewrite (touch_cells _ _ _ E4), release_cells. cbn [with_live v_cells]. unfold copy_handle, push. cbn [v_cells]. apply retain_cells. }
  cbn [with_live copy_handle push v_live v_next hset map fst] in L4, N4. rewrite retain_live in L4. rewrite retain_next in L4, N4.
  assert (Lf : v_live (destroy (store s4 (h_type r)) (v_next st) r) = hdel (v_next st) (v_live (store s4 (h_type r)))).
  { unfold destroy. now rewrite release_live. }
  cbn [store push v_live v_next] in Lf. rewrite L4, N4 in Lf.
  destruct (Nat.eqb_spec (v_next st) s) as [|Ne]; [lia|]. cbn [hdel filter fst v_next] in Lf.
  destruct (Nat.eqb_spec (S (v_next st)) (v_next st)); [lia|]. cbn [negb] in Lf. rewrite Nat.eqb_refl in Lf. cbn [negb] in Lf.
  split.
  - unfold get_handle. rewrite Lf. cbn [hfind]. destruct (Nat.eqb_spec (S (v_next st)) s); [lia|].
    assert (Q : forall l, (forall k, In k (map fst l) -> k < v_next st) -> hfind s l = Some r ->
      hfind s (filter (fun p => negb (Nat.eqb (fst p) (v_next st)))
        (map (fun p : nat * handle => if Nat.eqb (fst p) s then (s, empty_handle) else p) l)) = Some empty_handle).
    { induction l as [|[k x] l IH]; cbn [hfind map fst]; intros B F; [discriminate|].
      assert (k < v_next st) by (apply B; cbn; auto). destruct (Nat.eqb_spec k s) as [->|Nk]; cbn [filter fst].
      - destruct (Nat.eqb_spec s (v_next st)); [lia|]. cbn. now rewrite Nat.eqb_refl.
      - destruct (Nat.eqb_spec k (v_next st)); [lia|]. cbn. destruct (Nat.eqb_spec k s); [congruence|].
        apply IH; auto. intros k' I. apply B. cbn. auto. }
    rewrite Q; auto. apply (i_next _ _ V).
  - exists (S (v_next st)), (length (v_cells st)). rewrite Lf. split; [|split; [auto|lia]].
    left. rewrite Lc. reflexivity.
Qed.
Print Assumptions c64_move_empties_its_source.

(* Handles into a stored object do not keep it alive: a field of a temporary copy,
   and the source of a move, outlive what they designate. *)
Theorem c64_field_of_temporary_refuted : exists ops st a, vrun vinit ops = Ok st /\ In a (v_log st) /\ ac_dead a = true /\
  ops = [VView 7 5; VCopy 0; VSub 1 6 8%N; VDestroy 1; VAccess 2].
Proof. eexists _, _, _. split; [|split; [|split; [|reflexivity]]]; [reflexivity|right; left; reflexivity|reflexivity]. Qed.
Print Assumptions c64_field_of_temporary_refuted.

Theorem c64_moved_from_still_designates_refuted : exists ops st a r b, vrun vinit ops = Ok st /\
  get_handle st 0 = Ok r /\ h_own r = None /\ h_at r = Some (Inside b 0%N) /\
  In a (v_log st) /\ ac_dead a = true /\ ops = [VStore 5; VMoveNew 0; VDestroy 1; VAccess 0].
Proof. eexists _, _, _, _, _. split; [|split; [|split; [|split; [|split; [|split; [|reflexivity]]]]]]; try reflexivity. { left. reflexivity. } all: reflexivity. Qed.
Print Assumptions c64_moved_from_still_designates_refuted.

(* a history through every operation: three objects made, all deleted *)
Example c64_ex : exists st, vrun vinit
  [VStore 5; VCopyNew 0; VToConst 1; VDestroy 0; VAccess 2; VSub 2 6 4%N; VAccess 3; VView 9 5; VCopy 4; VMove 1;
   VRvalue 5; VDefault; VCopyAssign 9 5; VMoveAssign 9 7; VDestroy 9; VMoveNew 8; VDestroy 8; VDestroy 10;
   VDestroy 1; VDestroy 2; VDestroy 3; VDestroy 4; VDestroy 5; VDestroy 7] = Ok st /\
  v_live st = [] /\ v_freed st = [(2, 5); (0, 5); (1, 5)] /\ length (v_cells st) = 3.
Proof. eexists. split; [vm_compute; reflexivity|]. vm_compute. auto. Qed.
