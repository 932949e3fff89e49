(* ProofCodec4.v - reading and printing with the codecs of a complete table is reading and
   printing by type. *)
From Coq Require Import Relations Sorting.Permutation Sorting.Sorted.
From Coq Require String. Import String.StringSyntax.
From Verif Require Import Base Dec ModelJson ModelJsonW ModelJsonT SpecJsonT SpecCodec ModelCodec ProofCodec1 ProofCodec2 ProofCodec3.

(* ---- the loops depend on their callbacks pointwise ---- *)
Lemma bind_ext {A B} (x : outcome A) (f g : A -> outcome B) : (forall a, f a = g a) -> bind x f = bind x g.
Proof. intro H. destruct x; cbn; auto. Qed.

Lemma array_loop_ext {S} (f g : nat -> S -> reader -> outcome (S * reader)) :
  (forall i s r, f i s r = g i s r) -> forall n i s r, array_loop n f i s r = array_loop n g i s r.
Proof.
  intro H. induction n as [|n IH]; intros i s r; cbn [array_loop]; [reflexivity|].
  destruct (rok r); [|reflexivity]. rewrite H. apply bind_ext. intros [s1 r1]. apply bind_ext. intros [t r2].
  destruct (same_type t TArrE); [reflexivity|apply IH].
Qed.
Lemma parse_array_ext {S} (f g : nat -> S -> reader -> outcome (S * reader)) n s r :
  (forall i s r, f i s r = g i s r) -> parse_array n f s r = parse_array n g s r.
Proof.
  intro H. unfold parse_array. apply bind_ext. intros [t r1]. destruct (same_type t TNull); [reflexivity|].
  apply bind_ext. intros [t2 r2]. destruct (same_type t2 TArrE); [reflexivity|]. now apply array_loop_ext.
Qed.
Lemma object_loop_ext {S} (f g : str -> S -> reader -> outcome (S * reader)) :
  (forall i s r, f i s r = g i s r) -> forall n s r, object_loop n f s r = object_loop n g s r.
Proof.
  intro H. induction n as [|n IH]; intros s r; cbn [object_loop]; [reflexivity|].
  destruct (rok r); [|reflexivity]. apply bind_ext. intros [t r1]. apply bind_ext. intros x. apply bind_ext. intros [t2 r2].
  rewrite H. apply bind_ext. intros [s1 r3]. apply bind_ext. intros [t4 r4].
  destruct (same_type t4 TObjE); [reflexivity|apply IH].
Qed.
Lemma parse_object_ext {S} (f g : str -> S -> reader -> outcome (S * reader)) n s r :
  (forall i s r, f i s r = g i s r) -> parse_object n f s r = parse_object n g s r.
Proof.
  intro H. unfold parse_object. apply bind_ext. intros [t r1]. destruct (same_type t TNull); [reflexivity|].
  apply bind_ext. intros [t2 r2]. destruct (same_type t2 TObjE); [reflexivity|]. now apply object_loop_ext.
Qed.
Lemma parray_loop_ext (f g : nat -> writer -> outcome writer) : (forall i w, f i w = g i w) ->
  forall k first i w, parray_loop first i k f w = parray_loop first i k g w.
Proof.
  intro H. induction k as [|k IH]; intros first i w; cbn [parray_loop]; [reflexivity|].
  destruct (negb (wok w)); [reflexivity|]. apply bind_ext. intro w1. rewrite H. apply bind_ext. intro w2. apply IH.
Qed.
Lemma print_array_ext (f g : nat -> writer -> outcome writer) n w : (forall i w, f i w = g i w) ->
  print_array n f w = print_array n g w.
Proof. intro H. unfold print_array. apply bind_ext. intro w1. now rewrite (parray_loop_ext f g H). Qed.
Lemma pobject_loop_ext (f g : str -> writer -> outcome writer) (p q : str -> writer -> outcome bool) : forall ks,
  (forall k w, In k ks -> f k w = g k w) -> (forall k w, In k ks -> p k w = q k w) ->
  forall first w, pobject_loop first ks f p w = pobject_loop first ks g q w.
Proof.
  induction ks as [|k ks IH]; intros Hf Hp first w; cbn [pobject_loop]; [reflexivity|].
  destruct (negb (wok w)); [reflexivity|]. rewrite Hp by now left. apply bind_ext. intros [|]; [apply IH; intros; [apply Hf|apply Hp]; now right|].
  apply bind_ext. intro w1. apply bind_ext. intro w2. rewrite Hf by now left. apply bind_ext. intro w3.
  apply IH; intros; [apply Hf|apply Hp]; now right.
Qed.
Lemma print_object_ext (f g : str -> writer -> outcome writer) (p q : str -> writer -> outcome bool) ks w :
  (forall k w, In k ks -> f k w = g k w) -> (forall k w, In k ks -> p k w = q k w) ->
  print_object ks f p w = print_object ks g q w.
Proof. intros Hf Hp. unfold print_object. apply bind_ext. intro w1. now rewrite (pobject_loop_ext f g p q ks Hf Hp). Qed.

(* ---- tables and types ---- *)
Lemma env_nth s W t d : nth_error W t = Some d -> nth_error (env_of s W) t = Some (jtype_of s d).
Proof. intro H. unfold env_of. now apply map_nth_error. Qed.

Lemma find_key : forall l f, NoDup (map f_key l) -> In f l -> find (fun g => str_eqb (f_key f) (f_key g)) l = Some f.
Proof.
  induction l as [|x l IH]; cbn; intros f Hn Hi; [contradiction|]. inversion Hn; subst. destruct Hi as [->|Hi].
  - now rewrite str_eqb_refl.
  - destruct (str_eqb (f_key f) (f_key x)) eqn:E; [|auto]. apply str_eqb_eq in E. exfalso. apply H1. rewrite <- E. now apply in_map.
Qed.

Lemma shown_in d f : In f (shown d) -> In f (d_fields d).
Proof. intro H. apply filter_In in H. tauto. Qed.

Lemma field_type_of W t d f : nth_error W t = Some d -> NoDup (map f_key (d_fields d)) -> In f (shown d) ->
  field_type W t (f_key f) = Some (f_type f).
Proof. intros Hd Hn Hf. unfold field_type. rewrite Hd, (find_key _ _ Hn (shown_in _ _ Hf)). reflexivity. Qed.

Definition plain (s : side) (W : list desc) (t : nat) : Prop :=
  forall u d, reach s W t u -> nth_error W u = Some d -> ~ codec_kind s d KCustom.
Lemma plain_step s W t u : plain s W t -> refers s W t u -> plain s W u.
Proof. intros H Hr v d Hv. apply H. eapply reach_step; eauto. Qed.

(* the alias table of a complete codec, as a search among the fields *)
Lemma keys_find (c : codec) (l : list field) :
  (forall n k, afind n (c_keys c) = Some k <->
         exists l1 f l2, l = l1 ++ f :: l2 /\ json_name f = n /\ f_key f = k /\ ~ In n (map json_name l2)) ->
  forall n, afind n (c_keys c) = option_map f_key (find (fun f => str_eqb n (f_name f)) (rev l)).
Proof.
  intros H n. destruct (option_map f_key (find (fun f => str_eqb n (f_name f)) (rev l))) as [k|] eqn:E.
  - apply H. now apply find_rev_last.
  - destruct (afind n (c_keys c)) as [k|] eqn:E2; [|reflexivity]. apply H in E2. apply find_rev_last in E2. congruence.
Qed.

Lemma find_app_codec {A} (p : A -> bool) : forall l m, find p (l ++ m) = match find p l with Some x => Some x | None => find p m end.
Proof. induction l as [|x l IH]; cbn; intro m; [reflexivity|]. now destruct (p x). Qed.

Lemma find_rev_nodup : forall l n, NoDup (map f_name l) ->
  find (fun f => str_eqb n (f_name f)) (rev l) = find (fun f => str_eqb n (f_name f)) l.
Proof.
  induction l as [|x l IH]; intros n Hn; [reflexivity|]. cbn [rev find]. cbn in Hn. inversion Hn; subst.
  rewrite find_app_codec, (IH n H2). cbn. destruct (str_eqb n (f_name x)) eqn:E.
  - apply str_eqb_eq in E. subst n. destruct (find (fun f => str_eqb (f_name x) (f_name f)) l) eqn:Ef; [|reflexivity].
    apply find_some in Ef. destruct Ef as [E1 E2]. apply str_eqb_eq in E2. exfalso. apply H1. rewrite E2. now apply in_map.
  - now destruct (find (fun f => str_eqb n (f_name f)) l).
Qed.

Section Bridge.
Context (W : list desc) (HW : world_ok W) (st : table).
Context (cp : str -> nat -> val -> reader -> outcome (val * reader)).
Context (cw : str -> nat -> val -> writer -> outcome writer).

Lemma keys_of t d : nth_error W t = Some d -> NoDup (map f_key (d_fields d)).
Proof. intro H. apply HW. eapply nth_error_In; eauto. Qed.

Lemma parse_bridge (HC : complete Reading W st) : forall fuel t a v r, cached st t a -> plain Reading W t ->
  parse_c cp fuel W st a t v r = parse_t fuel (env_of Reading W) t v r.
Proof.
  induction fuel as [|n IH]; intros t a v r Hc Hp; [reflexivity|]. cbn [parse_c parse_t].
  destruct HC as (_ & _ & _ & HC'). destruct (HC' t a Hc) as (Hw & c & Ho & Hr). rewrite Ho.
  destruct Hr as (d & k & Hd & Hk & Hck & Hr). rewrite Hck.
  rewrite (env_nth _ _ _ _ Hd). unfold jtype_of.
  assert (Hch : choose Reading d = k) by now apply kind_choose.
  assert (Hnc : k <> KCustom). { intros ->. apply (Hp t d); [apply reach_refl|exact Hd|exact Hk]. }
  rewrite Hch.
  assert (Hex : exact_type W t = d_exact d) by (unfold exact_type; now rewrite Hd).
  destruct k; try reflexivity.
  - now rewrite Hex.
  - now rewrite Hex.
  - destruct Hr as [(i & b & Hi & Hin & Hb) Hsm].
    assert (Hst : refers Reading W t i) by (exists d, KPtr; auto).
    assert (Hpt : pointee_type W t = Some i) by (unfold pointee_type; now rewrite Hd).
    assert (Hsm' : c_smart c = is_trait d (lit "smartPtr")).
    { specialize (Hsm eq_refl). rewrite has_is in Hsm. destruct (c_smart c), (is_trait d (lit "smartPtr")); try reflexivity.
      - symmetry. now apply Hsm.
      - now apply Hsm. }
    rewrite Hin, Hpt, Hi, Hsm'. apply bind_ext. intros [tk r1]. destruct (same_type tk TNull); [reflexivity|].
    pose proof (plain_step _ _ _ _ Hp Hst) as Hpi.
    destruct v as [| | | | |[p|]| | |]; rewrite (IH i b) by assumption; reflexivity.
  - destruct Hr as (i & b & Hi & Hin & Hb).
    assert (Hst : refers Reading W t i) by (exists d, KMap; auto).
    pose proof (plain_step _ _ _ _ Hp Hst) as Hpi. rewrite Hin, Hi.
    erewrite parse_object_ext; [reflexivity|]. intros x y z. cbn beta. now rewrite (IH i b) by assumption.
  - destruct Hr as (i & b & Hi & Hin & Hb).
    assert (Hst : refers Reading W t i) by (exists d, KList; auto).
    pose proof (plain_step _ _ _ _ Hp Hst) as Hpi. rewrite Hin, Hi.
    erewrite parse_array_ext; [reflexivity|]. intros x y z. cbn beta. now rewrite (IH i b) by assumption.
  - contradiction.
  - destruct Hr as (R1 & R2 & R3 & _).
    assert (Hnames : NoDup (map f_name (shown d))).
    { destruct Hw as (d' & k' & Hd' & Hk' & Hw). rewrite Hd in Hd'. injection Hd' as <-.
      apply kind_choose in Hk'. rewrite Hch in Hk'. subst k'. exact Hw. }
    erewrite parse_object_ext; [reflexivity|]. intros al o z. cbn beta.
    rewrite (keys_find c (shown d) R3 al), (find_rev_nodup _ _ Hnames).
    unfold find_alias. change (obj_fields (d_fields d)) with (shown d).
    destruct (find (fun f => str_eqb al (f_name f)) (shown d)) as [f|] eqn:Ef; cbn [option_map]; [|reflexivity].
    apply find_some in Ef. destruct Ef as [Hf _]. destruct (R1 f Hf) as (b & Hb1 & Hb2). rewrite Hb1.
    rewrite (field_type_of W t d f Hd (keys_of t d Hd) Hf).
    rewrite (IH (f_type f) b); [reflexivity|exact Hb2|].
    eapply plain_step; [exact Hp|]. exists d, KObj. split; [exact Hd|]. split; [exact Hk|]. now exists f.
Qed.

Lemma empty_bridge (HC : complete Printing W st) : forall fuel t a v, cached st t a -> plain Printing W t ->
  is_empty_c fuel W st a t v = is_empty fuel (env_of Printing W) t v.
Proof.
  induction fuel as [|n IH]; intros t a v Hc Hp; [reflexivity|]. cbn [is_empty_c is_empty].
  destruct HC as (_ & _ & _ & HC'). destruct (HC' t a Hc) as (Hw & c & Ho & Hr). rewrite Ho.
  destruct Hr as (d & k & Hd & Hk & Hck & Hr). rewrite Hck.
  rewrite (env_nth _ _ _ _ Hd). unfold jtype_of.
  assert (Hch : choose Printing d = k) by now apply kind_choose. rewrite Hch.
  assert (Hex : exact_type W t = d_exact d) by (unfold exact_type; now rewrite Hd).
  destruct k; try reflexivity.
  - now rewrite Hex.
  - now rewrite Hex.
  - destruct Hr as [(i & b & Hi & Hin & Hb) _].
    assert (Hst : refers Printing W t i) by (exists d, KPtr; auto).
    assert (Hpt : pointee_type W t = Some i) by (unfold pointee_type; now rewrite Hd).
    rewrite Hin, Hpt, Hi. destruct v as [| | | | |[p|]| | |]; try reflexivity.
    apply IH; [exact Hb|]. eapply plain_step; eauto.
Qed.

Lemma print_bridge (HC : complete Printing W st) : forall fuel t a v w, cached st t a -> plain Printing W t ->
  print_c cw fuel W st a t v w = print_t fuel (env_of Printing W) t v w.
Proof.
  induction fuel as [|n IH]; intros t a v w Hc Hp; [reflexivity|]. cbn [print_c print_t].
  pose proof HC as HC0. destruct HC0 as (_ & _ & _ & HC'). destruct (HC' t a Hc) as (Hw & c & Ho & Hr). rewrite Ho.
  destruct Hr as (d & k & Hd & Hk & Hck & Hr). rewrite Hck.
  rewrite (env_nth _ _ _ _ Hd). unfold jtype_of.
  assert (Hch : choose Printing d = k) by now apply kind_choose.
  assert (Hnc : k <> KCustom). { intros ->. apply (Hp t d); [apply reach_refl|exact Hd|exact Hk]. }
  rewrite Hch.
  assert (Hex : exact_type W t = d_exact d) by (unfold exact_type; now rewrite Hd).
  destruct k; try reflexivity.
  - now rewrite Hex.
  - now rewrite Hex.
  - destruct Hr as [(i & b & Hi & Hin & Hb) _].
    assert (Hst : refers Printing W t i) by (exists d, KPtr; auto).
    assert (Hpt : pointee_type W t = Some i) by (unfold pointee_type; now rewrite Hd).
    rewrite Hin, Hpt, Hi. destruct v as [| | | | |[p|]| | |]; try reflexivity.
    apply IH; [exact Hb|]. eapply plain_step; eauto.
  - destruct Hr as (i & b & Hi & Hin & Hb).
    assert (Hst : refers Printing W t i) by (exists d, KMap; auto).
    pose proof (plain_step _ _ _ _ Hp Hst) as Hpi. rewrite Hin, Hi. destruct v; try reflexivity.
    apply print_object_ext; [|reflexivity]. intros k' w' _. destruct (afind k' m); [now apply IH|reflexivity].
  - destruct Hr as (i & b & Hi & Hin & Hb).
    assert (Hst : refers Printing W t i) by (exists d, KList; auto).
    pose proof (plain_step _ _ _ _ Hp Hst) as Hpi. rewrite Hin, Hi. destruct v; try reflexivity.
    apply print_array_ext. intros k' w'. destruct (nth_error l k'); [now apply IH|reflexivity].
  - contradiction.
  - destruct Hr as (R1 & R2 & R3 & R4). destruct (R4 eq_refl) as (R5 & R6 & R7).
    destruct v; try reflexivity.
    assert (Hs : c_sorted c = sorted_keys (d_fields d)).
    { apply sorted_unique; [exact R6|apply sort_sorted|]. unfold sorted_keys. rewrite sort_perm. exact R5. }
    rewrite Hs.
    assert (Hfield : forall f, In f (shown d) -> exists b, afind (f_key f) (c_fields c) = Some b /\ cached st (f_type f) b /\
        field_type W t (f_key f) = Some (f_type f) /\ plain Printing W (f_type f)).
    { intros f Hf. destruct (R1 f Hf) as (b & Hb1 & Hb2). exists b. split; [exact Hb1|]. split; [exact Hb2|].
      split; [apply (field_type_of W t d f Hd (keys_of t d Hd) Hf)|].
      eapply plain_step; [exact Hp|]. exists d, KObj. split; [exact Hd|]. split; [exact Hk|]. now exists f. }
    apply print_object_ext.
    + intros al w' _. cbn beta. rewrite (keys_find c (shown d) R3 al). unfold find_last_alias.
      change (obj_fields (d_fields d)) with (shown d).
      destruct (find (fun f => str_eqb al (f_name f)) (rev (shown d))) as [f|] eqn:Ef; cbn [option_map]; [|reflexivity].
      apply find_some in Ef. destruct Ef as [Hf _]. apply in_rev in Hf.
      destruct (Hfield f Hf) as (b & H1 & H2 & H3 & H4). rewrite H1, H3. now apply IH.
    + intros al w' _. cbn beta.
      assert (Hsk : smem al (c_skips c) = skip_empty_alias (d_fields d) al).
      { unfold skip_empty_alias. change (obj_fields (d_fields d)) with (shown d).
        destruct (existsb (fun f => str_eqb al (f_name f) && f_skipempty f) (shown d)) eqn:E.
        - apply smem_In, R7. apply existsb_exists in E. destruct E as (f & Hf & E). apply andb_prop in E. destruct E as [E1 E2].
          apply str_eqb_eq in E1. exists f. split; [exact Hf|]. split; [now symmetry|exact E2].
        - destruct (smem al (c_skips c)) eqn:E2; [|reflexivity]. apply smem_In, R7 in E2. destruct E2 as (f & Hf & E1 & E2).
          assert (existsb (fun f => str_eqb al (f_name f) && f_skipempty f) (shown d) = true); [|congruence].
          apply existsb_exists. exists f. split; [exact Hf|]. change (f_name f = al) in E1. now rewrite E1, str_eqb_refl, E2. }
      rewrite Hsk. destruct (negb (w_compact (wopt w')) && negb (skip_empty_alias (d_fields d) al)); [reflexivity|].
      rewrite (keys_find c (shown d) R3 al). unfold find_last_alias.
      change (obj_fields (d_fields d)) with (shown d).
      destruct (find (fun f => str_eqb al (f_name f)) (rev (shown d))) as [f|] eqn:Ef; cbn [option_map]; [|reflexivity].
      apply find_some in Ef. destruct Ef as [Hf _]. apply in_rev in Hf.
      destruct (Hfield f Hf) as (b & H1 & H2 & H3 & H4). rewrite H1, H3. now apply empty_bridge.
Qed.
End Bridge.
