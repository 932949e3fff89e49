(* ProofMap.v - the members of a reflected map, one call at a time (used by PropMap, C66). *)
From Coq Require String.
Import String.StringSyntax.
From Coq Require Import Sorted Permutation.
From Verif Require Import Base ModelCore SpecCore ProofCore ProofMatch ModelValue SpecValue ProofValue ModelPlumb SpecPlumb ProofPlumb ProofPlumb2 ProofPlumb3 ModelCont SpecCont ProofCont ProofCont2.

(* ----- maps in memory ----- *)
Section InMemory.
Context (ordered : bool).
Definition linked (m : mem) (ks : list (N * nat)) (l : list (N * N)) : Prop :=
  Forall2 (fun kn kp => fst kn = fst kp /\ m (snd kn) = DData (snd kp)) ks l.

Lemma linked_fst m ks l : linked m ks l -> map fst ks = map fst l.
Proof. intro F. induction F as [|a b ks l (E1 & _) F IH]; cbn; congruence. Qed.
Lemma linked_length m ks l : linked m ks l -> length ks = length l.
Proof. intro F. induction F; cbn; congruence. Qed.
Lemma linked_find m ks l k : linked m ks l -> NoDup (map fst l) ->
  match kfind k ks with
  | Some o => exists p, In (k, p) l /\ m o = DData p /\ In (k, o) ks
  | None => ~ In k (map fst l)
  end.
Proof.
  intros F. induction F as [|[a n] [b p] ks l (E1 & E2) F IH]; cbn in *; [auto|]. intros N. subst b. inversion N; subst.
  destruct (N.eqb_spec k a) as [->|Na].
  - exists p. auto.
  - specialize (IH H2). destruct (kfind k ks) as [o|].
    + destruct IH as (q & Q1 & Q2 & Q3). exists q. auto.
    + intros [?|?]; [congruence|contradiction].
Qed.
Lemma in_functional (l : list (N * N)) k p q : NoDup (map fst l) -> In (k, p) l -> In (k, q) l -> p = q.
Proof.
  induction l as [|[a x] l IH]; cbn; [tauto|]. intros N. inversion N; subst. intros [E1|I1] [E2|I2]; auto.
  - congruence.
  - injection E1 as -> ->. elim H1. apply in_map_iff. now exists (k, q).
  - injection E2 as -> ->. elim H1. apply in_map_iff. now exists (k, p).
Qed.
Lemma linked_frame m m' ks l : linked m ks l -> (forall y, m y <> DNone -> (exists p, m y = DData p) -> m' y = m y) -> linked m' ks l.
Proof.
  intros F Q. induction F as [|a b ks l (E1 & E2) F IH]; constructor; auto. split; auto. rewrite Q; auto; [congruence|eauto].
Qed.
Lemma linked_born m ks l next n : unborn m next -> linked m ks l -> In n (map snd ks) -> n < next.
Proof.
  intros U F I. induction F as [|a b ks l (E1 & E2) F IH]; cbn in I; [contradiction|]. destruct I as [<-|I]; auto.
  apply (born m _ _ U). congruence.
Qed.
Lemma linked_node m ks l n : linked m ks l -> In n (map snd ks) -> exists p, m n = DData p.
Proof. intros F I. induction F as [|a b ks l (E1 & E2) F IH]; cbn in I; [contradiction|]. destruct I as [<-|I]; eauto. Qed.

Fixpoint pinsert (k p : N) (l : list (N * N)) : list (N * N) :=
  match l with
  | [] => [(k, p)]
  | (k', p') :: l' => if N.ltb k k' then (k, p) :: l else (k', p') :: pinsert k p l'
  end.
Lemma pinsert_perm k p l : Permutation (pinsert k p l) ((k, p) :: l).
Proof.
  induction l as [|[a x] l IH]; cbn; auto. destruct (N.ltb k a); auto.
  eapply perm_trans; [apply perm_skip, IH|apply perm_swap].
Qed.
Lemma pinsert_sorted k p l : ~ In k (map fst l) -> StronglySorted N.lt (map fst l) -> StronglySorted N.lt (map fst (pinsert k p l)).
Proof.
  induction l as [|[a x] l IH]; cbn; intros Ni S; [repeat constructor|]. inversion S as [|? ? S' F]; subst.
  destruct (N.ltb_spec k a) as [L|L]; cbn.
  - constructor; auto. constructor; auto. eapply Forall_impl; [|exact F]. intros z Lz. cbn in Lz. lia.
  - assert (a < k)%N by (assert (a <> k) by tauto; lia). constructor; [apply IH; auto|].
    rewrite (Permutation_map fst (pinsert_perm k p l)). cbn. constructor; auto.
Qed.
Lemma linked_insert m ks l k n p : linked m ks l -> m n = DData p -> linked m (kinsert k n ks) (pinsert k p l).
Proof.
  intros F En. induction F as [|[a x] [b q] ks l (E1 & E2) F IH]; cbn in *; [repeat constructor; auto|]. subst b.
  destruct (N.ltb k a); repeat (constructor; cbn; auto).
Qed.
Lemma kinsert_perm k n ks : Permutation (map snd (kinsert k n ks)) (n :: map snd ks).
Proof.
  induction ks as [|[a x] ks IH]; cbn; auto. destruct (N.ltb k a); cbn; auto.
  eapply perm_trans; [apply perm_skip, IH|apply perm_swap].
Qed.

(* the new pair goes in *)
Lemma insert_map m next o l k d ks : unborn m next -> m o = DMap ks -> linked m ks l -> NoDup (map fst l) -> NoDup (map snd ks) ->
  (ordered = true -> StronglySorted N.lt (map fst l)) -> ~ In k (map fst l) ->
  exists l', Permutation l' ((k, d) :: l) /\ (ordered = true -> StronglySorted N.lt (map fst l')) /\
    let m' := mset (mset m next (DData d)) o (DMap (if ordered then kinsert k next ks else (k, next) :: ks)) in
    is_map ordered m' o l' /\ m' next = DData d /\ unborn m' (S next) /\ forall y, y <> o -> m y <> DNone -> m' y = m y.
Proof.
  intros U Eo L N1 N2 S Ni. set (l' := if ordered then pinsert k d l else (k, d) :: l).
  assert (P : Permutation l' ((k, d) :: l)) by (unfold l'; destruct ordered; [apply pinsert_perm|reflexivity]).
  assert (So : ordered = true -> StronglySorted N.lt (map fst l')) by (intro Q; unfold l'; rewrite Q; apply pinsert_sorted; auto).
  assert (Lo : o < next) by (apply (born m _ _ U); congruence).
  exists l'. split; [exact P|]. split; [exact So|]. intro m'.
  assert (En : m' next = DData d) by (unfold m'; rewrite mset_other by lia; apply mset_same).
  assert (F : forall y, y <> o -> m y <> DNone -> m' y = m y).
  { intros y Y1 Y2. apply (born m _ _ U) in Y2. unfold m'. rewrite !mset_other by lia. auto. }
  assert (L' : linked m' ks l) by (eapply linked_frame; [exact L|]; intros y Y1 (p & Y2); apply F; auto; congruence).
  split; [|split; [exact En|split; [|exact F]]].
  - exists (if ordered then kinsert k next ks else (k, next) :: ks). split; [unfold m'; apply mset_same|]. split; [|split; [|split; [|exact So]]].
    + unfold l'. destruct ordered; [now apply linked_insert|constructor; auto].
    + apply (Permutation_NoDup (l := map fst ((k, d) :: l))); [apply Permutation_map; now symmetry|]. cbn. now constructor.
    + assert (Nn : NoDup (next :: map snd ks)).
      { constructor; auto. intro I. pose proof (linked_born m ks l next next U L I). lia. }
      destruct ordered; [|exact Nn]. eapply Permutation_NoDup; [symmetry; apply kinsert_perm|exact Nn].
  - intros y Ly. unfold m'. rewrite !mset_other by lia. apply U. lia.
Qed.

(* writing through a node *)
Lemma node_write m o l ks k n : m o = DMap ks -> linked m ks l -> NoDup (map fst l) -> NoDup (map snd ks) ->
  (ordered = true -> StronglySorted N.lt (map fst l)) -> In (k, n) ks ->
  forall p, exists l2, is_map ordered (write m (n, 0%N) p) o l2 /\ map fst l2 = map fst l /\ In (k, p) l2 /\
    forall k' p', k' <> k -> (In (k', p') l2 <-> In (k', p') l).
Proof.
  intros Eo L N1 N2 S I p. assert (In n (map snd ks)) as In_ by (apply in_map_iff; now exists (k, n)).
  destruct (linked_node m ks l n L In_) as (q & Eq).
  assert (Ew : write m (n, 0%N) p = mset m n (DData p)) by (unfold write; cbn [fst snd]; now rewrite Eq). rewrite Ew.
  set (m' := mset m n (DData p)). set (f := fun kp : N * N => if N.eqb (fst kp) k then (k, p) else kp).
  assert (Ff : map fst (map f l) = map fst l).
  { rewrite map_map. apply List.map_ext. intros [a x]. unfold f. cbn. destruct (N.eqb_spec a k); cbn; congruence. }
  assert (L' : linked m' ks (map f l)).
  { clear S Ff Eo. unfold linked in *. revert N1 N2 I. induction L as [|[a x] [b y] ks l (E1 & E2) L IH]; intros N1 N2 I; cbn; [constructor|].
    cbn in *. subst b. inversion N1; subst. inversion N2; subst. pose proof (linked_fst _ _ _ L) as Ek. constructor.
    - unfold f. cbn. destruct (N.eqb_spec a k) as [->|Na]; cbn; split; auto.
      + destruct I as [I|I]; [injection I as ->; unfold m'; apply mset_same|]. elim H1. rewrite <- Ek. apply in_map_iff. now exists (k, n).
      + destruct I as [I|I]; [congruence|]. unfold m'. rewrite mset_other; auto. intros ->. apply H3. apply in_map_iff. now exists (k, n).
    - destruct I as [I|I].
      + injection I as -> ->. assert (Eid : map f l = l).
        { rewrite <- (map_id l) at 2. apply map_ext_in. intros [b z] Ib. unfold f. cbn. destruct (N.eqb_spec b k) as [->|]; auto.
          elim H1. apply in_map_iff. now exists (k, z). }
        rewrite Eid. clear - L H3. induction L as [|c d ks l (E1 & E2) L IH]; constructor; cbn in *; [|apply IH; tauto].
        split; auto. unfold m'. rewrite mset_other; auto.
      + apply IH; auto. apply in_map_iff. now exists (k, n). }
  exists (map f l). split; [|split; [exact Ff|split]].
  - exists ks. split; [unfold m'; rewrite mset_other; auto; intros ->; congruence|]. rewrite Ff. auto.
  - assert (J : In k (map fst l)) by (rewrite <- (linked_fst _ _ _ L); apply in_map_iff; now exists (k, n)). apply in_map_iff in J as ([a x] & Q & J). cbn in Q. subst a. apply in_map_iff. exists (k, x). split; auto. unfold f. cbn. now rewrite N.eqb_refl.
  - intros k' p' Nk. rewrite in_map_iff. split.
    + intros ([a x] & Q & J). unfold f in Q. cbn in Q. destruct (N.eqb_spec a k) as [->|]; congruence.
    + intro J. exists (k', p'). split; auto. unfold f. cbn. destruct (N.eqb_spec k' k); congruence.
Qed.
End InMemory.

Section Map.
Context (ordered : bool) (E : cpp) (H : heap) (K : cont) (T X V KV Z : tptr) (id : str).
Context (MT : map_type E H K T X V KV Z id).
Notation k := (Caps true true true true true).
Notation b := (k_base K).

Let W : wf_heap H := mt_wf _ _ _ _ _ _ _ _ _ MT.
Let NV : h_value H <> h_void H := proj1 (mt_apart _ _ _ _ _ _ _ _ _ MT).
Lemma map_apart U : In U [T; X; V; KV; Z] -> U <> h_void H /\ U <> h_value H.
Proof. exact (proj1 (Forall_forall _ _) (proj2 (mt_apart _ _ _ _ _ _ _ _ _ MT)) U). Qed.
Lemma map_valids U : In U [X; V; KV; Z] -> valid H U.
Proof. exact (proj1 (Forall_forall _ _) (mt_valid _ _ _ _ _ _ _ _ _ MT) U). Qed.
Lemma map_valid : valid H T.
Proof. destruct (mt_carries _ _ _ _ _ _ _ _ _ MT) as (t & Et & _). eapply tget_valid; eauto. Qed.
Lemma map_id n : firstn 2 n <> firstn 2 (lit "std") -> n <> id.
Proof. intros Hn ->. destruct (mt_id _ _ _ _ _ _ _ _ _ MT) as (kid & vid & [-> | ->]); now apply Hn. Qed.
Lemma map_noconv : ~ has_user_conversion H T T.
Proof.
  pose proof (mt_carries _ _ _ _ _ _ _ _ _ MT) as C. intro U.
  pose proof C as (t & Et & Eid2 & _). destruct (carries_conversion H T id _ T C) as (tu & ret & args & code & Etu & J); auto.
  { congruence. }
  assert (tu = t) as -> by congruence. rewrite Eid2 in J.
  assert (EX : exists kid vid prefix, (prefix = lit "std::map<" \/ prefix = lit "std::unordered_map<") /\ id = prefix ++ kid ++ lit "," ++ vid ++ lit ">").
  { destruct (mt_id _ _ _ _ _ _ _ _ _ MT) as (kid & vid & [E1|E1]); exists kid, vid; eauto. }
  destruct EX as (kid & vid & prefix & Pre & Eid).
  destruct (map_extension H T X V KV Z prefix kid vid b [] Pre map_valid (map_valids X (or_introl eq_refl))
    (map_valids V (or_intror (or_introl eq_refl))) (map_valids KV (or_intror (or_intror (or_introl eq_refl))))
    (map_valids Z (or_intror (or_intror (or_intror (or_introl eq_refl)))))) as (Y & _).
  rewrite <- Eid in Y. unfold stdMap in J. apply in_app_or in J as [J|J].
  - apply plumbing_names in J as [Q|Q]; [now apply converterName_neq_id in Q|now apply converterName_neq_assign in Q].
  - exact (ex_conv _ _ _ _ _ Y _ _ _ J).
Qed.
Lemma map_function n l : n <> id -> n <> lit "operator=" -> fns_of n (map_ext T X V KV Z b) = l -> l <> [] ->
  function H T n = Ok l.
Proof.
  intros N1 N2 El Nl. pose proof (carries_function H T id _ n (mt_carries _ _ _ _ _ _ _ _ _ MT) W) as (F & _).
  assert (Q : fns_of n (stdMap id T X V KV Z k b) = l).
  { unfold stdMap. rewrite fns_of_app, (fns_of_none n (plumbing id T k b)); [exact El|].
    intros ret args code J. apply plumbing_names in J as [?|?]; congruence. }
  rewrite Q in F. now apply F.
Qed.
Lemma mgT r c r' c' : isConvertibleTo H (Arg T r c) (Arg T r' c') = Ok (same_grade (Arg T r c) (Arg T r' c')).
Proof. apply same_type_grade; auto using map_valid, map_noconv. Qed.
Lemma mgX r c r' c' : isConvertibleTo H (Arg X r c) (Arg X r' c') = Ok (same_grade (Arg X r c) (Arg X r' c')).
Proof. apply same_type_grade; auto; [apply map_valids; cbn; auto|apply (mt_key _ _ _ _ _ _ _ _ _ MT)]. Qed.

(* a call of a member without a key *)
Lemma map_call0 name U code n m st v : name <> id -> name <> lit "operator=" ->
  fns_of name (map_ext T X V KV Z b) = [Fn name (Arg U Copy false) [Arg T LValue true] (b + code)] ->
  In U [KV; Z] -> v_type v = T ->
  mcall (map_body ordered K) (S n) E H m st v name [] =
    bind (map_body ordered K (b + code) [PRef (v_addr v)] m (st_next st)) (fun x => let '(r2, res) := x in let '(m2, next2) := r2 in
      Ok (Val (Arg U LValue false) (next2, 0%N) true, match res with RNew d => mset m2 next2 d | _ => m2 end,
          St (S next2) (st_log st ++ [(b + code, [PRef (v_addr v)])]))).
Proof.
  intros N1 N2 Ef IU Tv. pose proof (arg_of v T Tv) as Ea. set (f := Fn name (Arg U Copy false) [Arg T LValue true] (b + code)) in *.
  assert (IU' : In U [T; X; V; KV; Z]) by (cbn in *; tauto). destruct (map_apart U IU') as (U1 & U2).
  destruct (map_apart T (or_introl eq_refl)) as (T1 & T2).
  assert (Ts : test_sig H f (ret_value H) (map v_arg [v]) = Ok (same_grade (v_arg v) (Arg T LValue true))).
  { cbn [map]. unfold f. rewrite test_one by auto. rewrite Ea at 1. rewrite mgT. now rewrite <- Ea. }
  assert (Ng : same_grade (v_arg v) (Arg T LValue true) <> MNone) by (rewrite Ea; apply cref_grade).
  erewrite mcall_chosen with (os := [f]) (f := f) (m1 := m); [| | |exact Ts|exact Ng| |].
  2: { rewrite Tv. apply map_function; auto. discriminate. }
  2: { rewrite (resolve_one _ _ _ _ _ Ts). destruct (same_grade _ _); [congruence|reflexivity..]. }
  2: { cbn [f_args f pass_all]. rewrite pass_cref by (auto using map_valid). cbn [bind]. reflexivity. }
  2: { apply ctors_none. }
  cbn [f_code f]. destruct (map_body ordered K (b + code) [PRef (v_addr v)] m (st_next st)) as [((m2 & next2) & res)| | | |]; cbn [bind]; auto.
  unfold wrap_ret. cbn [f_ret f a_type a_ref a_const]. rewrite (nat_eqb_neq _ _ U1), (nat_eqb_neq _ _ U2).
  cbn [ref_eqb]. unfold make_value. cbn [a_ref ref_eqb negb]. unfold storable. cbn [cpp_copyable cpp_movable with_ref a_type].
  assert (Eu : cpp_copyable E U = true) by (destruct IU as [<-|[<-|[]]]; apply (mt_copies _ _ _ _ _ _ _ _ _ MT)).
  rewrite Eu, orb_true_r. cbn [bind]. reflexivity.
Qed.

(* a call of a member with a key *)
Lemma map_call1 name r c code n m st v x : name <> id -> name <> lit "operator=" ->
  fns_of name (map_ext T X V KV Z b) = [Fn name r [Arg T LValue c; Arg X LValue true] (b + code)] ->
  a_type r <> h_value H -> v_type v = T -> (c = false -> v_arg v = Arg T LValue false) -> v_type x = X ->
  mcall (map_body ordered K) (S n) E H m st v name [x] =
    bind (map_body ordered K (b + code) [PRef (v_addr v); PRef (v_addr x)] m (st_next st)) (fun y => let '(r2, res) := y in let '(m2, next2) := r2 in
      bind (wrap_ret (with_ref E res) H (Fn name r [Arg T LValue c; Arg X LValue true] (b + code)) [PRef (v_addr v); PRef (v_addr x)] (St next2 (st_log st)))
        (fun y => let '(w, st2) := y in Ok (w, match res with RNew d => mset m2 next2 d | _ => m2 end, st2))).
Proof.
  intros N1 N2 Ef Nr Tv Mv Tx. pose proof (arg_of v T Tv) as Ea. pose proof (arg_of x X Tx) as Ex.
  set (f := Fn name r [Arg T LValue c; Arg X LValue true] (b + code)) in *.
  destruct (map_apart T (or_introl eq_refl)) as (T1 & T2). destruct (map_apart X (or_intror (or_introl eq_refl))) as (X1 & X2).
  assert (Ts : test_sig H f (ret_value H) (map v_arg [v; x]) =
     Ok (combine (same_grade (v_arg v) (Arg T LValue c)) (same_grade (v_arg x) (Arg X LValue true)))).
  { cbn [map]. unfold f. apply test_two; auto; [rewrite Ea; apply mgT|rewrite Ex; apply mgX]. }
  assert (Ng : combine (same_grade (v_arg v) (Arg T LValue c)) (same_grade (v_arg x) (Arg X LValue true)) <> MNone).
  { assert (same_grade (v_arg v) (Arg T LValue c) <> MNone).
    { destruct c; [rewrite Ea; apply cref_grade|]. rewrite (Mv eq_refl). discriminate. }
    rewrite Ex. pose proof (cref_grade X (a_ref (v_arg x)) (a_const (v_arg x))).
    now destruct (same_grade (v_arg v) _), (same_grade (Arg X _ _) _). }
  change (b + code) with (f_code f) at 1. apply mcall_chosen with (os := [f]) (f := f) (g := combine (same_grade (v_arg v) (Arg T LValue c)) (same_grade (v_arg x) (Arg X LValue true))); auto.
  - rewrite Tv. apply map_function; auto. discriminate.
  - rewrite (resolve_one _ _ _ _ _ Ts). destruct (combine _ _); [congruence|reflexivity..].
  - cbn [f_args f pass_all]. assert (E1 : pass (S n) E H st v (Arg T LValue c) = Ok (PRef (v_addr v), st)).
    { destruct c; [apply pass_cref|apply pass_mut]; auto using map_valid. }
    rewrite E1. cbn [bind]. assert (valid H X) by (apply map_valids; cbn; auto). rewrite pass_cref by auto. reflexivity.
  - apply ctors_none.
Qed.

Context (n : nat) (m : mem) (st : state) (v : value) (o : nat) (l : list (N * N)).
Context (U : unborn m (st_next st)) (C : is_map ordered m o l).

Lemma map_of_ok : handle_to T o v -> exists ks, map_of m (v_addr v) = Ok ks /\ m o = DMap ks /\ linked m ks l /\
  NoDup (map fst l) /\ NoDup (map snd ks) /\ (ordered = true -> StronglySorted N.lt (map fst l)).
Proof.
  intros (_ & Av). destruct C as (ks & E1 & E2 & E3 & E4 & E5). exists ks. unfold map_of. rewrite Av, E1. auto 10.
Qed.
Lemma map_fresh d : is_map ordered (mset m (st_next st) d) o l /\ unborn (mset m (st_next st) d) (S (st_next st)) /\
  (forall y, m y <> DNone -> mset m (st_next st) d y = m y).
Proof.
  destruct C as (ks & E1 & E2 & E3 & E4 & E5).
  assert (F : forall y, m y <> DNone -> mset m (st_next st) d y = m y) by (intros y By; apply (born m _ _ U) in By; apply mset_other; lia).
  split; [|split; [now apply unborn_mset|exact F]]. exists ks. rewrite F by congruence. split; [exact E1|]. split; [|auto].
  eapply linked_frame; [exact E2|]. intros y Y1 _. now apply F.
Qed.

Lemma map_size : handle_to T o v -> exists w m' st',
  mcall (map_body ordered K) (S n) E H m st v (lit "size") [] = Ok (w, m', st') /\ unborn m' (st_next st') /\ is_map ordered m' o l /\
  owns_number Z m' w (N.of_nat (length l)) /\ (forall y, m y <> DNone -> m' y = m y).
Proof.
  intros Hv. destruct (map_of_ok Hv) as (ks & Eo & E1 & L & _). destruct Hv as (Tv & Av).
  rewrite (map_call0 (lit "size") Z 5); auto; [|apply map_id; discriminate|discriminate|cbn; auto].
  unfold map_body. rewrite Nat.add_comm, Nat.add_sub, Eo. cbn [bind]. eexists _, _, _. split; [reflexivity|]. cbn [st_next].
  destruct (map_fresh (DData (N.of_nat (length ks)))) as (R1 & R2 & R3). split; [exact R2|]. split; [exact R1|]. split; [|exact R3].
  repeat split. cbn. rewrite mset_same. now rewrite (linked_length _ _ _ L).
Qed.
Lemma map_keys : handle_to T o v -> exists w m' st',
  mcall (map_body ordered K) (S n) E H m st v (lit "keys") [] = Ok (w, m', st') /\ unborn m' (st_next st') /\ is_map ordered m' o l /\
  new_vector KV m m' w (map fst l) /\ (forall y, m y <> DNone -> m' y = m y).
Proof.
  intros Hv. destruct (map_of_ok Hv) as (ks & Eo & E1 & L & E3 & E4 & E5). destruct Hv as (Tv & Av).
  rewrite (map_call0 (lit "keys") KV 9); auto; [|apply map_id; discriminate|discriminate|cbn; auto].
  unfold map_body. rewrite Nat.add_comm, Nat.add_sub, Eo. cbn [bind]. eexists _, _, _. split; [reflexivity|]. cbn [st_next].
  set (m' := mset _ _ _).
  assert (F : forall y, m y <> DNone -> m' y = m y).
  { intros y By. apply (born m _ _ U) in By. unfold m'. rewrite !mset_other by lia. auto. }
  split; [intros y Ly; unfold m'; rewrite !mset_other by lia; apply U; lia|]. split; [|split; [|exact F]].
  - exists ks. rewrite F by congruence. split; [exact E1|]. split; [|auto]. eapply linked_frame; [exact L|]. intros y Y1 _. now apply F.
  - split; [reflexivity|]. split; [reflexivity|]. cbn [v_addr fst]. split; [apply U; lia|]. exists (st_next st). unfold m'.
    rewrite mset_same, mset_other, mset_same by lia. split; auto. now rewrite (linked_fst _ _ _ L).
Qed.
Lemma map_count x q : handle_to T o v -> holds m x X q -> exists w m' st' r,
  mcall (map_body ordered K) (S n) E H m st v (lit "count") [x] = Ok (w, m', st') /\ unborn m' (st_next st') /\ is_map ordered m' o l /\
  MapDoes ordered (k_dflt K) l (MCount q) l (MNumber r) /\ owns_number Z m' w r /\ (forall y, m y <> DNone -> m' y = m y).
Proof.
  intros Hv (Tx & Rx). destruct (map_of_ok Hv) as (ks & Eo & E1 & L & E3 & _). destruct Hv as (Tv & Av).
  assert (IZ : In Z [T; X; V; KV; Z]) by (cbn; auto 10). destruct (map_apart Z IZ) as (Z1 & Z2).
  rewrite (map_call1 (lit "count") (Arg Z Copy false) true 6); auto; [|apply map_id; discriminate|discriminate|discriminate].
  unfold map_body. rewrite Nat.add_comm, Nat.add_sub, Eo. cbn [bind]. unfold get. rewrite Rx. cbn [bind].
  unfold wrap_ret. cbn [f_ret a_type a_ref a_const]. rewrite (nat_eqb_neq _ _ Z1), (nat_eqb_neq _ _ Z2).
  cbn [ref_eqb]. unfold make_value. cbn [a_ref ref_eqb negb]. unfold storable. cbn [cpp_copyable cpp_movable with_ref a_type].
  rewrite (proj1 (mt_copies _ _ _ _ _ _ _ _ _ MT)), orb_true_r. cbn [bind st_next].
  set (r := match kfind q ks with Some _ => 1%N | None => 0%N end).
  eexists _, _, _, r. split; [reflexivity|]. cbn [st_next].
  destruct (map_fresh (DData r)) as (R1 & R2 & R3). split; [exact R2|]. split; [exact R1|]. split; [|split; [|exact R3]].
  - pose proof (linked_find m ks l q L E3) as F. unfold r. destruct (kfind q ks) as [nd|].
    + destruct F as (p & F1 & _). now apply M_count_in with (p := p).
    + now apply M_count_out.
  - repeat split. cbn. now rewrite mset_same.
Qed.

Lemma map_element m' l' ks k' nd c : m' o = DMap ks -> linked m' ks l' -> NoDup (map fst l') -> NoDup (map snd ks) ->
  (ordered = true -> StronglySorted N.lt (map fst l')) -> In (k', nd) ks ->
  is_mapres ordered V Z KV m m' o l' (Val (Arg V LValue c) (nd, 0%N) false) (MElement k' (negb c)).
Proof.
  intros E1 L N1 N2 S Ik. cbn [is_mapres v_arg v_stored v_addr]. rewrite negb_involutive. split; [reflexivity|]. split; [reflexivity|].
  split; [exists ks; auto|].
  assert (P : exists p, In (k', p) l' /\ m' nd = DData p).
  { clear - L Ik. induction L as [|[a x] [b0 y] ks l' (E1 & E2) L IH]; [contradiction|]. cbn in *. subst b0. destruct Ik as [Q|Q].
    - injection Q as -> ->. exists y. auto.
    - destruct (IH Q) as (p & P1 & P2). exists p. auto. }
  destruct P as (p & P1 & P2). split; [|split].
  - intros p' Ip. rewrite (in_functional l' k' p' p) by auto. unfold read. cbn. now rewrite P2.
  - apply in_map_iff. now exists (k', p).
  - now apply (node_write ordered m' o l' ks k' nd).
Qed.

Lemma map_index x q : mutable_handle T o v -> holds m x X q -> exists w m' st' l',
  mcall (map_body ordered K) (S n) E H m st v (lit "operator[]") [x] = Ok (w, m', st') /\ unborn m' (st_next st') /\ is_map ordered m' o l' /\
  MapDoes ordered (k_dflt K) l (MIndex q) l' (MElement q true) /\ is_mapres ordered V Z KV m m' o l' w (MElement q true) /\
  (forall y, y <> o -> m y <> DNone -> m' y = m y) /\ (forall q' a, refers m o q' a -> refers m' o q' a) /\
  (forall q' a, refers m' o q' a -> refers m o q' a \/ m (fst a) = DNone).
Proof.
  intros Mv (Tx & Rx). assert (Hv : handle_to T o v) by (destruct Mv as (Q & Q'); split; auto; unfold v_type; now rewrite Q).
  destruct (map_of_ok Hv) as (ks & Eo & E1 & L & E3 & E4 & E5). destruct Hv as (Tv & Av). destruct Mv as (Ev & _).
  assert (IV : In V [T; X; V; KV; Z]) by (cbn; auto 10). destruct (map_apart V IV) as (V1 & V2).
  rewrite (map_call1 (lit "operator[]") (Arg V LValue false) false 7); auto; [|apply map_id; discriminate|discriminate].
  unfold map_body. rewrite Nat.add_comm, Nat.add_sub, Eo. cbn [bind]. unfold get. rewrite Rx. cbn [bind].
  pose proof (linked_find m ks l q L E3) as F. destruct (kfind q ks) as [nd|] eqn:Ek; cbn [bind];
  unfold wrap_ret; cbn [f_ret a_type a_ref a_const]; rewrite (nat_eqb_neq _ _ V1), (nat_eqb_neq _ _ V2); cbn [ref_eqb bind with_ref cpp_ref_result st_next].
  - destruct F as (p & F1 & F2 & F3). eexists _, m, _, l. split; [reflexivity|]. cbn [st_next]. split; [exact U|]. split; [exact C|].
    split; [now apply M_index_in with (p := p)|]. split; [now apply (map_element m l ks q nd false)|auto 10].
  - rewrite Av. destruct (insert_map ordered m (st_next st) o l q (k_dflt K) ks U E1 L E3 E4 E5 F) as (l' & P & So & Q).
    cbv zeta in Q. set (m' := mset _ _ _) in *. destruct Q as (Q1 & Q2 & Q3 & Q4).
    eexists _, m', _, l'. split; [reflexivity|]. cbn [st_next]. split; [exact Q3|]. split; [exact Q1|].
    split; [now apply M_index_out|]. split; [|split; [exact Q4|split]].
    3: { intros q' a (ks0 & R1 & R2 & R3). unfold m' in R1. rewrite mset_same in R1. injection R1 as <-.
         assert (J : In (q', fst a) ((q, st_next st) :: ks)).
         { destruct ordered; [|exact R2]. clear - R2. induction ks as [|[c x0] ks IH]; cbn in *; [tauto|]. destruct (N.ltb q c); cbn in *; tauto. }
         destruct J as [J|J]; [right; injection J as _ <-; apply U; lia|left; exists ks; auto]. }
    2: { intros q' a (ks0 & R1 & R2 & R3). assert (ks0 = ks) as -> by congruence. unfold m'. eexists. rewrite mset_same. split; [reflexivity|].
         split; [|exact R3]. destruct ordered; [|now right]. clear - R2. induction ks as [|[c x0] ks IH]; cbn in *; [contradiction|].
         destruct (N.ltb q c); cbn; tauto. }
    destruct Q1 as (ks' & K1 & K2 & K3 & K4 & K5). apply (map_element m' l' ks' q (st_next st) false); auto.
    unfold m' in K1. rewrite mset_same in K1. injection K1 as <-. destruct ordered; [|now left].
    clear. induction ks as [|[a x] ks IH]; cbn; auto. destruct (N.ltb q a); cbn; auto.
Qed.

Lemma map_at x q : handle_to T o v -> holds m x X q ->
  (forall p, In (q, p) l -> exists w st',
    mcall (map_body ordered K) (S n) E H m st v (lit "at") [x] = Ok (w, m, st') /\ st_next st' = st_next st /\
    is_mapres ordered V Z KV m m o l w (MElement q false)) /\
  (~ In q (map fst l) -> mcall (map_body ordered K) (S n) E H m st v (lit "at") [x] = Abort).
Proof.
  intros Hv (Tx & Rx). destruct (map_of_ok Hv) as (ks & Eo & E1 & L & E3 & E4 & E5). destruct Hv as (Tv & Av).
  assert (IV : In V [T; X; V; KV; Z]) by (cbn; auto 10). destruct (map_apart V IV) as (V1 & V2).
  rewrite (map_call1 (lit "at") (Arg V LValue true) true 8); auto; [|apply map_id; discriminate|discriminate|discriminate].
  unfold map_body. rewrite Nat.add_comm, Nat.add_sub, Eo. cbn [bind]. unfold get. rewrite Rx. cbn [bind].
  pose proof (linked_find m ks l q L E3) as F. destruct (kfind q ks) as [nd|] eqn:Ek; cbn [bind].
  - destruct F as (p & F1 & F2 & F3). split; [|intro Q; elim Q; apply in_map_iff; now exists (q, p)]. intros p' _.
    unfold wrap_ret; cbn [f_ret a_type a_ref a_const]; rewrite (nat_eqb_neq _ _ V1), (nat_eqb_neq _ _ V2); cbn [ref_eqb bind with_ref cpp_ref_result st_next].
    eexists _, _. split; [reflexivity|]. split; [reflexivity|]. now apply (map_element m l ks q nd true).
  - split; [|reflexivity]. intros p Ip. elim F. apply in_map_iff. now exists (q, p).
Qed.

Lemma map_const_index x : v_type v = T -> ~ (a_ref (v_arg v) = LValue /\ a_const (v_arg v) = false) -> v_type x = X ->
  mcall (map_body ordered K) n E H m st v (lit "operator[]") [x] = Abort.
Proof.
  intros Tv Nm Tx. pose proof (arg_of v T Tv) as Ev. pose proof (arg_of x X Tx) as Ex.
  assert (IV : In V [T; X; V; KV; Z]) by (cbn; auto 10). destruct (map_apart V IV) as (V1 & V2).
  assert (Gv : same_grade (v_arg v) (Arg T LValue false) = MNone).
  { rewrite Ev, mut_grade. destruct (a_ref (v_arg v)), (a_const (v_arg v)); try reflexivity. elim Nm. auto. }
  set (f := Fn (lit "operator[]") (Arg V LValue false) [Arg T LValue false; Arg X LValue true] (b + 7)).
  assert (Ts : test_sig H f (ret_value H) (map v_arg [v; x]) = Ok (combine MNone (same_grade (v_arg x) (Arg X LValue true)))).
  { cbn [map]. unfold f. apply test_two; auto; [rewrite Ev, mgT, <- Ev, Gv; reflexivity|rewrite Ex; apply mgX]. }
  cbn [combine grade_eqb orb] in Ts. eapply mcall_none with (os := [f]); [|now rewrite (resolve_one _ _ _ _ _ Ts)].
  rewrite Tv. apply map_function; [apply map_id; discriminate|discriminate|reflexivity|discriminate].
Qed.
End Map.
