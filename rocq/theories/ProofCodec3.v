(* ProofCodec3.v - the result of a whole lookup. *)
From Coq Require Import Relations Sorting.Permutation Sorting.Sorted.
From Coq Require String. Import String.StringSyntax.
From Verif Require Import Base Dec ModelJson ModelJsonW ModelJsonT SpecJsonT SpecCodec ModelCodec ProofCodec1 ProofCodec2.

(* ---- the sorted names ---- *)
Lemma ltb_irr : forall a, str_ltb a a = false.
Proof. induction a as [|x a IH]; cbn; [reflexivity|]. now rewrite N.ltb_irrefl, N.eqb_refl. Qed.
Lemma ltb_asym : forall a b, str_ltb a b = true -> str_ltb b a = false.
Proof.
  induction a as [|x a IH]; intros [|y b] H; cbn in *; try reflexivity; try discriminate.
  destruct (N.ltb_spec x y); destruct (N.ltb_spec y x); destruct (N.eqb_spec x y); destruct (N.eqb_spec y x);
    try lia; auto; try discriminate.
Qed.
Lemma ltb_antisym : forall a b, str_ltb a b = false -> str_ltb b a = false -> a = b.
Proof.
  induction a as [|x a IH]; intros [|y b] H1 H2; cbn in *; try reflexivity; try discriminate.
  destruct (N.ltb_spec x y); destruct (N.ltb_spec y x); destruct (N.eqb_spec x y); destruct (N.eqb_spec y x);
    try lia; try discriminate. subst. f_equal. auto.
Qed.
Lemma geb_trans : forall a b c, str_ltb b a = false -> str_ltb c b = false -> str_ltb c a = false.
Proof.
  induction a as [|x a IH]; intros [|y b] [|z c] H1 H2; cbn in *; try reflexivity; try discriminate.
  destruct (N.ltb_spec y x); [discriminate|]. destruct (N.ltb_spec z y); [discriminate|].
  destruct (N.ltb_spec z x); [lia|]. destruct (N.eqb_spec y x); destruct (N.eqb_spec z y); destruct (N.eqb_spec z x); try lia; eauto.
Qed.

Definition leq (a b : str) : Prop := str_ltb b a = false.
Lemma insert_perm k : forall l, Permutation (insert_str k l) (k :: l).
Proof.
  induction l as [|x l IH]; cbn; [reflexivity|]. destruct (str_ltb k x); [reflexivity|].
  rewrite IH. apply perm_swap.
Qed.
Lemma sort_perm : forall l, Permutation (sort_strs l) l.
Proof. induction l as [|x l IH]; cbn; [reflexivity|]. fold (sort_strs l). rewrite insert_perm. now constructor. Qed.
Lemma insert_sorted k : forall l, StronglySorted leq l -> StronglySorted leq (insert_str k l).
Proof.
  induction l as [|x l IH]; cbn; intro H; [repeat constructor|].
  destruct (str_ltb k x) eqn:E.
  - constructor; [exact H|]. constructor; [now apply ltb_asym|].
    apply Forall_forall. intros y Hy. apply StronglySorted_inv in H. destruct H as [_ H].
    rewrite Forall_forall in H. eapply geb_trans; [apply ltb_asym; exact E|apply (H y Hy)].
  - apply StronglySorted_inv in H. destruct H as [H1 H2]. constructor; [now apply IH|].
    apply Forall_forall. intros y Hy. apply (Permutation_in _ (insert_perm k l)) in Hy. destruct Hy as [<-|Hy].
    + exact E.
    + rewrite Forall_forall in H2. now apply H2.
Qed.
Lemma sort_sorted : forall l, StronglySorted leq (sort_strs l).
Proof. induction l as [|x l IH]; cbn; [constructor|]. fold (sort_strs l). now apply insert_sorted. Qed.
Lemma sorted_unique : forall l m, StronglySorted leq l -> StronglySorted leq m -> Permutation l m -> l = m.
Proof.
  induction l as [|x l IH]; intros m Hl Hm Hp; [apply Permutation_nil in Hp; now subst|].
  destruct m as [|y m]; [apply Permutation_sym, Permutation_nil in Hp; discriminate|].
  apply StronglySorted_inv in Hl. apply StronglySorted_inv in Hm. destruct Hl as [L1 L2]. destruct Hm as [M1 M2].
  rewrite Forall_forall in L2, M2.
  assert (x = y).
  { assert (Hx : In x (y :: m)) by (eapply Permutation_in; [exact Hp|now left]).
    assert (Hy : In y (x :: l)) by (eapply Permutation_in; [apply Permutation_sym; exact Hp|now left]).
    destruct Hx as [Hx|Hx]; [now subst|]. destruct Hy as [Hy|Hy]; [now subst|].
    apply ltb_antisym; [apply (M2 x Hx)|apply (L2 y Hy)]. }
  subst y. f_equal. apply IH; auto. eapply Permutation_cons_inv; exact Hp.
Qed.

(* ---- an object codec ---- *)
Lemma find_rev_last : forall l n k,
  option_map f_key (find (fun f => str_eqb n (f_name f)) (rev l)) = Some k <->
  exists l1 f l2, l = l1 ++ f :: l2 /\ json_name f = n /\ f_key f = k /\ ~ In n (map json_name l2).
Proof.
  induction l as [|x l IH] using rev_ind; intros n k.
  - cbn. split; [discriminate|]. intros (l1 & f & l2 & H & _). destruct l1; discriminate.
  - rewrite rev_app_distr. cbn [rev app find]. destruct (str_eqb n (f_name x)) eqn:E.
    + apply str_eqb_eq in E. cbn. split.
      * intro H. injection H as <-. exists l, x, []. split; [reflexivity|]. split; [now symmetry|]. split; [reflexivity|intros []].
      * intros (l1 & f & l2 & H & H1 & H2 & H3). destruct l2 as [|y l2] using rev_ind.
        -- apply app_inj_tail in H. destruct H as [_ <-]. now rewrite H2.
        -- rewrite app_comm_cons, app_assoc in H. apply app_inj_tail in H. destruct H as [_ <-].
           exfalso. apply H3. rewrite map_app. apply in_app_iff. right. left. now symmetry.
    + rewrite IH. split.
      * intros (l1 & f & l2 & H & H1 & H2 & H3). exists l1, f, (l2 ++ [x]).
        split; [rewrite H, <- app_assoc; reflexivity|]. split; [exact H1|]. split; [exact H2|].
        rewrite map_app. intro Hi. apply in_app_iff in Hi. destruct Hi as [Hi|[Hi|[]]]; [contradiction|].
        change (f_name x = n) in Hi. rewrite Hi, str_eqb_refl in E. discriminate.
      * intros (l1 & f & l2 & H & H1 & H2 & H3). destruct l2 as [|y l2] using rev_ind.
        -- apply app_inj_tail in H. destruct H as [_ <-]. change (f_name x = n) in H1. rewrite H1, str_eqb_refl in E. discriminate.
        -- rewrite app_comm_cons, app_assoc in H. apply app_inj_tail in H. destruct H as [-> <-].
           exists l1, f, l2. split; [reflexivity|]. split; [exact H1|]. split; [exact H2|].
           intro Hi. apply H3. rewrite map_app. apply in_app_iff. now left.
Qed.

Lemma built_right s W st t d c : nth_error W t = Some d -> choose s d = KObj -> NoDup (map f_key (shown d)) ->
  built s st (shown d) c -> (s = Printing -> c_sorted c = sort_strs (map f_name (shown d))) -> right s W st t c.
Proof.
  intros Hd Hk Hnd (A & B & C & D) Hs. exists d, KObj. split; [exact Hd|]. split; [now apply kind_choose|].
  split; [exact A|].
  assert (Hkeys : akeys (c_fields c) = map f_key (shown d)) by (eapply fields_keys; exact C).
  split; [|split; [|split]].
  - intros f Hf.
    assert (He : exists e, In e (c_fields c) /\ fst e = f_key f /\ cached st (f_type f) (snd e)).
    { clear - C Hf. induction C as [|x e l m H _ IH]; [contradiction|]. destruct Hf as [->|Hf].
      - exists e. split; [now left|exact H].
      - destruct (IH Hf) as (e' & H1 & H2). exists e'. split; [now right|exact H2]. }
    destruct He as ([k b] & He1 & He2 & He3). cbn in He2, He3. subst k. exists b. split; [|exact He3].
    apply In_afind_NoDup; [rewrite Hkeys; exact Hnd|exact He1].
  - intros k Hi. rewrite Hkeys in Hi. apply in_map_iff in Hi. destruct Hi as (f & H1 & H2). now exists f.
  - intros n k. rewrite B. apply find_rev_last.
  - intro Hsp. rewrite (Hs Hsp). split; [apply sort_perm|]. split; [apply sort_sorted|].
    intro n. rewrite (D Hsp), in_map_iff. split.
    + intros (f & H1 & H2). apply filter_In in H2. destruct H2. exists f. split; [assumption|]. now split.
    + intros (f & H1 & H2 & H3). exists f. split; [exact H2|]. apply filter_In. now split.
Qed.

Lemma NoDup_filter_map (g : field -> bool) : forall l, NoDup (map f_key l) -> NoDup (map f_key (filter g l)).
Proof.
  induction l as [|x l IH]; cbn; intro H; [constructor|]. inversion H; subst. destruct (g x); cbn; auto.
  constructor; auto. intro Hi. apply H2. apply in_map_iff in Hi. destruct Hi as (y & E & Hy).
  apply filter_In in Hy. apply in_map_iff. exists y. tauto.
Qed.

(* ---- the whole lookup ---- *)
Lemma nth_error_ext_codec : forall (l m : list codec), (forall n, nth_error l n = nth_error m n) -> l = m.
Proof.
  induction l as [|x l IH]; intros [|y m] H; [reflexivity|specialize (H 0); discriminate|specialize (H 0); discriminate|].
  pose proof (H 0) as H0. injection H0 as ->. f_equal. apply IH. intro n. apply (H (S n)).
Qed.

Section Get.
Context (s : side) (W : list desc) (HW : world_ok W).

Lemma ill_of t d k : nth_error W t = Some d -> codec_kind s d k ->
  match k with
    | KMap | KList => exists u, d_value d = Some u
    | KCustom => In (custom s d) (d_funs d)
    | KVoid => s = Reading
    | KObj => match s with
              | Reading => NoDup (map json_name (shown d))
              | Printing => NoDup (map f_key (shown d))
              end
    | _ => True
    end <-> well s W t.
Proof.
  intros Hd Hk. split; intro H; [exists d, k; auto|].
  destruct H as (d' & k' & Hd' & Hk' & H). rewrite Hd in Hd'. injection Hd' as <-.
  apply kind_choose in Hk, Hk'. rewrite Hk in Hk'. subst k'. exact H.
Qed.


Lemma finish_simple P t st d k g : okp s W P st -> cfind t (t_cache st) = None -> nth_error W t = Some d ->
  choose s d = k -> well s W t ->
  (forall st', right s W st' t (g (blank_codec k))) ->
  good_result s W P t st (put (length (t_objs st)) g (mkT ((t, length (t_objs st)) :: t_cache st) (t_objs st ++ [blank_codec k])), Got (length (t_objs st))).
Proof.
  intros Ho Hc Hd Hk Hw Hr. unfold good_result. cbn [snd fst].
  assert (Hn : nth_error (t_objs st ++ [blank_codec k]) (length (t_objs st)) = Some (blank_codec k)).
  { rewrite nth_error_app2, Nat.sub_diag by lia. reflexivity. }
  split.
  { eapply okp_finish with (t := t) (c := blank_codec k); [now apply okp_enter|now left|exact Hn|apply Hr]. }
  split.
  { split; [now exists [(t, length (t_objs st))]|]. intros a Ha. cbn [t_objs put]. rewrite nth_set_other by lia. now rewrite nth_error_app1. }
  split; [now left|].
  intros u b [Hu|Hu]; [injection Hu as <- <-; right; split; [apply reach_refl|exact Hw]|now left].
Qed.

Lemma put_id a st : put a (fun c => c) st = st.
Proof.
  unfold put. destruct st as [ca ob]. cbn [t_cache t_objs]. f_equal. apply nth_error_ext_codec. intro n. rewrite nth_set.
  destruct (nth_error ob n); [|reflexivity]. now destruct (Nat.eqb n a).
Qed.

Lemma inner_case (g0 : nat -> table -> table * got) n P t st d k iu fin :
  okp s W P st -> cfind t (t_cache st) = None -> nth_error W t = Some d -> choose s d = k ->
  (forall u st1, okp s W (t :: P) st1 -> length (fresh_types W st1) < n -> good_result s W (t :: P) u st1 (g0 u st1)) ->
  length (fresh_types W st) < S n ->
  (iu = None -> ~ well s W t) ->
  (forall u, iu = Some u -> well s W t /\ refers s W t u /\
      forall st' b, cached st' u b -> right s W st' t (fin (set_inner (u, b) (blank_codec k)))) ->
  good_result s W P t st (init_inner g0 (length (t_objs st)) iu fin (mkT ((t, length (t_objs st)) :: t_cache st) (t_objs st ++ [blank_codec k]))).
Proof.
  intros Ho Hc Hd Hk Hg0 Hf Hno Hyes. unfold init_inner. destruct iu as [u|].
  2:{ unfold good_result. cbn. exists t. split; [apply reach_refl|now apply Hno]. }
  destruct (Hyes u eq_refl) as (Hw & Href & Hright).
  set (st1 := mkT ((t, length (t_objs st)) :: t_cache st) (t_objs st ++ [blank_codec k])).
  assert (Ho1 : okp s W (t :: P) st1) by now apply okp_enter.
  assert (Hlt : t < length W) by (apply nth_error_Some; congruence).
  assert (Hf1 : length (fresh_types W st1) < n).
  { pose proof (fresh_enter W st t (length (t_objs st)) (t_objs st ++ [blank_codec k]) Hlt Hc). fold st1 in H. lia. }
  pose proof (Hg0 u st1 Ho1 Hf1) as HG. unfold good_result in *. destruct (g0 u st1) as [st2 x]. cbn [snd fst] in *.
  destruct x as [b| |]; cbn [snd fst]; [| |contradiction].
  - destruct HG as (G1 & G2 & G3 & G4).
    assert (Hn2 : nth_error (t_objs st2) (length (t_objs st)) = Some (blank_codec k)).
    { destruct G2 as [_ G2]. rewrite G2; [|cbn; rewrite app_length; cbn; lia].
      cbn. rewrite nth_error_app2, Nat.sub_diag by lia. reflexivity. }
    assert (Hct : cached st2 t (length (t_objs st))).
    { destruct G2 as [G2 _]. eapply grows_cached; [exact G2|]. now left. }
    split.
    { eapply okp_finish with (c := blank_codec k) (g := fun c => fin (set_inner (u, b) c)); [exact G1|exact Hct|exact Hn2|]. now apply Hright. }
    split.
    { assert (Hgr : grows st st2) by (eapply grows_trans; [apply Ho|apply Ho1|apply grows_enter|exact G2]).
      destruct Hgr as [Hgr1 Hgr2]. split; [exact Hgr1|]. intros a Ha. cbn [t_objs put]. rewrite nth_set_other by lia. now apply Hgr2. }
    split; [exact Hct|].
    intros v bv Hv. destruct (G4 v bv Hv) as [[Hv1|Hv1]|[Hv1 Hv2]].
    + injection Hv1 as <- <-. right. split; [apply reach_refl|exact Hw].
    + now left.
    + right. split; [eapply reach_step; eauto|exact Hv2].
  - destruct HG as (v & Hv1 & Hv2). exists v. split; [eapply reach_step; eauto|exact Hv2].
Qed.

Lemma get_good : forall n t st P, okp s W P st -> length (fresh_types W st) < n -> good_result s W P t st (get n s W t st).
Proof.
  induction n as [|n IH]; intros t st P Ho Hf; [lia|]. cbn [get].
  destruct (cfind t (t_cache st)) as [a|] eqn:Ec.
  { unfold good_result. cbn. split; [exact Ho|]. split; [apply grows_refl|]. split; [now apply cfind_In|]. intros; now left. }
  destruct (nth_error W t) as [d|] eqn:Ed.
  2:{ unfold good_result. cbn. exists t. split; [apply reach_refl|]. intros (d & k & H & _). congruence. }
  assert (Hlt : t < length W) by (apply nth_error_Some; congruence).
  assert (Hkd : codec_kind s d (choose s d)) by now apply kind_choose.
  pose proof (ill_of t d _ Ed Hkd) as Hwell.
  set (k := choose s d) in *.
  assert (Hk : choose s d = k) by reflexivity. clearbody k.
  assert (Hbase : forall g, well s W t -> (forall st', right s W st' t (g (blank_codec k))) ->
     good_result s W P t st (put (length (t_objs st)) g (mkT ((t, length (t_objs st)) :: t_cache st) (t_objs st ++ [blank_codec k])), Got (length (t_objs st)))).
  { intros g Hw Hr. eapply finish_simple; eauto. }
  assert (Hbase0 : well s W t -> (forall st', right s W st' t (blank_codec k)) ->
     good_result s W P t st (mkT ((t, length (t_objs st)) :: t_cache st) (t_objs st ++ [blank_codec k]), Got (length (t_objs st)))).
  { intros Hw Hr. pose proof (Hbase (fun c => c) Hw Hr) as H. now rewrite put_id in H. }
  assert (Hplain : forall st', match k with KBool | KInt | KFloat | KStr | KVoid => True | _ => False end -> right s W st' t (blank_codec k)).
  { intros st' Hs. exists d, k. split; [exact Ed|]. split; [exact Hkd|]. split; [reflexivity|]. destruct k; auto; contradiction. }
  destruct k.
  - apply Hbase0; [now apply Hwell|intro; now apply Hplain].
  - apply Hbase0; [now apply Hwell|intro; now apply Hplain].
  - apply Hbase0; [now apply Hwell|intro; now apply Hplain].
  - apply Hbase0; [now apply Hwell|intro; now apply Hplain].
  - eapply inner_case with (n := n); eauto.
    + intro Hnone. assert (Ha : applies s d KPtr) by (destruct Hkd as (? & ? & _ & Ha & _); exact Ha).
      destruct Ha as [i Hi]. congruence.
    + intros u Hu. split; [now apply Hwell|]. split; [exists d, KPtr; auto|].
      intros st' b Hb. exists d, KPtr. split; [exact Ed|]. split; [exact Hkd|]. split; [destruct s; reflexivity|].
      split; [exists u, b; split; [exact Hu|]; split; [destruct s; reflexivity|exact Hb]|].
      intros ->. cbn. symmetry. apply has_is.
  - eapply inner_case with (n := n); eauto.
    + intro Hnone. rewrite <- Hwell. intros [u Hu]. congruence.
    + intros u Hu. split; [apply Hwell; eauto|]. split; [exists d, KMap; auto|].
      intros st' b Hb. exists d, KMap. split; [exact Ed|]. split; [exact Hkd|]. split; [reflexivity|]. exists u, b. auto.
  - eapply inner_case with (n := n); eauto.
    + intro Hnone. rewrite <- Hwell. intros [u Hu]. congruence.
    + intros u Hu. split; [apply Hwell; eauto|]. split; [exists d, KList; auto|].
      intros st' b Hb. exists d, KList. split; [exact Ed|]. split; [exact Hkd|]. split; [reflexivity|]. exists u, b. auto.
  - change (custom_of s d) with (custom s d). destruct (smem (custom s d) (d_funs d)) eqn:Em.
    + apply Hbase; [apply Hwell; now apply smem_In|]. intro st'. exists d, KCustom.
      split; [exact Ed|]. split; [exact Hkd|]. split; reflexivity.
    + unfold good_result. cbn. exists t. split; [apply reach_refl|]. rewrite <- Hwell, <- smem_In. congruence.
  - destruct s.
    + apply Hbase0; [now apply Hwell|intro; now apply Hplain].
    + unfold good_result. cbn. exists t. split; [apply reach_refl|]. rewrite <- Hwell. discriminate.
  - set (st1 := mkT ((t, length (t_objs st)) :: t_cache st) (t_objs st ++ [blank_codec KObj])).
    assert (Ho1 : okp s W (t :: P) st1) by now apply okp_enter.
    assert (Hf1 : length (fresh_types W st1) < n).
    { pose proof (fresh_enter W st t (length (t_objs st)) (t_objs st ++ [blank_codec KObj]) Hlt Ec). fold st1 in H. lia. }
    assert (Hkeys : NoDup (map f_key (shown d))).
    { apply NoDup_filter_map. apply HW. eapply nth_error_In; eauto. }
    assert (HL : loop_result s W P t (length (t_objs st)) [] (d_fields d) st1 (init_fields (get n s W) s (length (t_objs st)) (d_fields d) st1)).
    { apply loop_good with (n := n) (c := blank_codec KObj).
      - intros u st' H1 H2. now apply IH.
      - exact Ho1.
      - now left.
      - cbn. rewrite nth_error_app2, Nat.sub_diag by lia. reflexivity.
      - split; [reflexivity|]. split; [reflexivity|]. split; [constructor|reflexivity].
      - reflexivity.
      - intros _. constructor.
      - exact Hkeys.
      - exact Hf1. }
    unfold loop_result in HL. unfold good_result.
    change (shown_of (d_fields d)) with (shown d) in HL. cbn [app] in HL.
    destruct (init_fields (get n s W) s (length (t_objs st)) (d_fields d) st1) as [st2 x]. cbn [snd fst] in *.
    destruct x as [a| |]; [| |contradiction].
    + destruct HL as (-> & L1 & L2 & (c & L3 & L4 & L5) & L6 & L7).
      assert (Hw : well s W t).
      { apply Hwell. destruct s; [now apply L6|exact Hkeys]. }
      assert (Hr : right s W st2 t c) by (eapply built_right; eauto).
      assert (Hct : cached st2 t (length (t_objs st))).
      { destruct L2 as [L2 _]. eapply grows_cached; [exact L2|]. now left. }
      split; [eapply okp_done; eauto|].
      split.
      { destruct L2 as [[new L2] L2']. split.
        - exists (new ++ [(t, length (t_objs st))]). rewrite L2. cbn. now rewrite <- app_assoc.
        - intros a Ha. rewrite L2'; [|cbn; rewrite app_length; lia|lia]. cbn. now rewrite nth_error_app1. }
      split; [exact Hct|].
      intros v bv Hv. destruct (L7 v bv Hv) as [[Hv1|Hv1]|(f & F1 & F2 & F3)].
      * injection Hv1 as <- <-. right. split; [apply reach_refl|exact Hw].
      * now left.
      * right. split; [|exact F3]. eapply reach_step; [|exact F2]. exists d, KObj. split; [exact Ed|]. split; [exact Hkd|]. now exists f.
    + destruct HL as [(f & u & F1 & F2 & F3)|[Hs Hd]].
      * exists u. split; [|exact F3]. eapply reach_step; [|exact F2]. exists d, KObj. split; [exact Ed|]. split; [exact Hkd|]. now exists f.
      * exists t. split; [apply reach_refl|]. rewrite <- Hwell. subst s. exact Hd.
Qed.
End Get.
