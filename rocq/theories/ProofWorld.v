(* ProofWorld.v - the special members of maps, and worlds of maps and vectors (C74). *)
From Coq Require String.
Import String.StringSyntax.
From Coq Require Import Sorted Permutation.
From Verif Require Import Base ModelCore SpecCore ProofCore ProofMatch ModelValue SpecValue ProofValue ModelPlumb SpecPlumb ProofPlumb ProofPlumb2 ProofPlumb3
  ModelCont SpecCont ProofCont ProofCont2 ProofMap PropMap ModelPtr SpecPtr ProofPtr ProofPtr2 ModelPlain SpecPlain ProofPlain SpecWorld.

(* ----- nodes ----- *)
Lemma copy_nodes_ok ks : forall m next l, unborn m next -> linked m ks l ->
  exists m2 next2 ks2, copy_nodes m next ks = Ok (m2, next2, ks2) /\ next <= next2 /\ unborn m2 next2 /\ linked m2 ks2 l /\
    (forall y, y < next -> m2 y = m y) /\ NoDup (map snd ks2) /\ (forall y, In y (map snd ks2) -> next <= y < next2).
Proof.
  induction ks as [|[k o] ks IH]; intros m next l U L; inversion L as [|c d ks' l' (E1 & E2) L']; subst.
  - exists m, next, []. split; [reflexivity|]. split; [lia|]. split; [exact U|]. split; [constructor|]. split; [auto|]. split; [constructor|]. intros y [].
  - cbn [copy_nodes]. cbn [fst snd] in *. unfold get, read. cbn [fst snd]. rewrite E2. cbn [N.eqb bind].
    assert (Lo : forall y, m y <> DNone -> y <> next) by (intros y Ny ->; apply Ny, U; lia).
    destruct (IH (mset m next (DData (snd d))) (S next) l') as (m2 & next2 & ks2 & Q1 & Q2 & Q3 & Q4 & Q5 & Q6 & Q7).
    { now apply unborn_mset. }
    { eapply linked_frame; [exact L'|]. intros y Y1 _. apply mset_other. auto. }
    rewrite Q1. cbn [bind]. exists m2, next2, ((k, next) :: ks2). split; [reflexivity|]. split; [lia|]. split; [exact Q3|].
    assert (En : m2 next = DData (snd d)) by (rewrite Q5 by lia; apply mset_same).
    split; [constructor; [split; auto|exact Q4]|].
    split; [intros y Y; rewrite Q5 by lia; apply mset_other; lia|].
    cbn [map snd]. split; [constructor; [|exact Q6]; intro J; apply Q7 in J; lia|].
    intros y [<-|J]; [lia|]. apply Q7 in J. lia.
Qed.
Lemma free_nodes_at l : forall m y, free_nodes m l y = if existsb (Nat.eqb y) (map snd l) then DNone else m y.
Proof.
  induction l as [|[k o] l IH]; intros m y; cbn; auto. destruct (Nat.eqb_spec y o) as [->|N]; cbn.
  - apply mset_same.
  - now rewrite mset_other.
Qed.
Lemma existsb_in y l : existsb (Nat.eqb y) l = true <-> In y l.
Proof. rewrite existsb_exists. split; [intros (z & J & Q); apply Nat.eqb_eq in Q; now subst|intro J; exists y; split; auto; apply Nat.eqb_refl]. Qed.
Lemma free_in l m y : In y (map snd l) -> free_nodes m l y = DNone.
Proof. intros J. rewrite free_nodes_at. now rewrite (proj2 (existsb_in y _) J). Qed.
Lemma free_out l m y : ~ In y (map snd l) -> free_nodes m l y = m y.
Proof. intros J. rewrite free_nodes_at. destruct (existsb _ _) eqn:Q; auto. apply existsb_in in Q. contradiction. Qed.

Lemma refers_in m o ks k a : m o = DMap ks -> refers m o k a <-> In (k, fst a) ks /\ snd a = 0%N.
Proof. intros Eo. split; [intros (ks' & Q & R); assert (ks' = ks) as -> by congruence; exact R|intro R; exists ks; auto]. Qed.
Lemma node_refers m o ks y : m o = DMap ks -> In y (map snd ks) -> exists k, refers m o k (y, 0%N).
Proof. intros Eo J. apply in_map_iff in J as ([k z] & Q & J). cbn in Q. subst z. exists k. apply (refers_in m o ks); auto. Qed.
Lemma refers_node m o ks k a : m o = DMap ks -> refers m o k a -> In (fst a) (map snd ks).
Proof. intros Eo R. apply (refers_in m o ks k a Eo) in R as (R & _). apply in_map_iff. now exists (k, fst a). Qed.
Lemma refers_data ordered m o l k a : is_map ordered m o l -> refers m o k a -> exists p, m (fst a) = DData p.
Proof.
  intros (ks & D1 & D2 & _) R. exact (linked_node m ks l (fst a) D2 (refers_node _ _ _ _ _ D1 R)).
Qed.
(* a map stays as it is when its own object and its nodes do *)
Lemma is_map_frame ordered m m' o l : is_map ordered m o l -> m' o = m o -> (forall k a, refers m o k a -> m' (fst a) = m (fst a)) -> is_map ordered m' o l.
Proof.
  intros (ks & D1 & D2 & D3 & D4 & D5) Eo F. exists ks. split; [congruence|]. split; [|auto].
  assert (G : forall y, In y (map snd ks) -> m' y = m y).
  { intros y J. destruct (node_refers m o ks y D1 J) as (k & R). exact (F k _ R). }
  clear - D2 G. induction D2 as [|c d ks l (E1 & E2) L IH]; constructor.
  - split; auto. rewrite G; [exact E2|now left].
  - apply IH. intros y J. apply G. now right.
Qed.
Lemma refers_frame (m m' : mem) o k a : m' o = m o -> refers m' o k a <-> refers m o k a.
Proof. intros Q. unfold refers. now rewrite Q. Qed.
Lemma upd_same {A} (W : world A) o l : upd W o l o = Some l.
Proof. unfold upd. now rewrite Nat.eqb_refl. Qed.
Lemma upd_other {A} (W : world A) o l y : y <> o -> upd W o l y = W y.
Proof. intros N. unfold upd. now rewrite (proj2 (Nat.eqb_neq y o) N). Qed.
Lemma upd_alive {A} (W : world A) o l y : upd W o l y <> None -> y = o \/ W y <> None.
Proof. unfold upd. destruct (Nat.eqb_spec y o); auto. Qed.

Lemma linked_on (m m' : mem) ks l : linked m ks l -> (forall y, In y (map snd ks) -> m' y = m y) -> linked m' ks l.
Proof.
  intros L. induction L as [|c d kk ll (E1 & E2) L IH]; intros G; constructor.
  - split; auto. rewrite G; [exact E2|now left].
  - apply IH. intros y J. apply G. now right.
Qed.
(* the empty map *)
Lemma empty_map ordered m o : m o = DMap [] -> is_map ordered m o [].
Proof. intros Q. exists []. split; [exact Q|]. repeat (split; [constructor|]). intros _. constructor. Qed.

Section Maps.
Context (ordered : bool) (E : cpp) (H : heap) (K : cont) (T X V KV Z : tptr) (id : str).
Context (MT : map_type E H K T X V KV Z id) (Cc : cpp_copyable E T = true) (Cm : cpp_movable E T = true).
Notation k := (Caps true true true true true).
Notation b := (k_base K).
Notation rs := (stdMap id T X V KV Z k b).
Notation Bd := (map_body ordered K).

Lemma mW : wf_heap H. Proof. exact (mt_wf _ _ _ _ _ _ _ _ _ MT). Qed.
Lemma mNV : h_value H <> h_void H. Proof. exact (proj1 (mt_apart _ _ _ _ _ _ _ _ _ MT)). Qed.
Lemma mTd : T <> h_void H. Proof. apply (map_apart E H K T X V KV Z id MT T). now left. Qed.
Lemma mTv : T <> h_value H. Proof. apply (map_apart E H K T X V KV Z id MT T). now left. Qed.
Lemma map_plumbed : plumbed_body H T id k b rs [].
Proof.
  pose proof (mt_carries _ _ _ _ _ _ _ _ _ MT) as C.
  assert (EX : exists kid vid prefix, (prefix = lit "std::map<" \/ prefix = lit "std::unordered_map<") /\ id = prefix ++ kid ++ lit "," ++ vid ++ lit ">").
  { destruct (mt_id _ _ _ _ _ _ _ _ _ MT) as (kid & vid & [E1|E1]); exists kid, vid; eauto. }
  destruct EX as (kid & vid & prefix & Pre & Eid).
  pose proof (map_valids E H K T X V KV Z id MT) as Vs.
  destruct (map_extension H T X V KV Z prefix kid vid b (plumbing id T all_caps b ++ map_ext T X V KV Z b) Pre (map_valid E H K T X V KV Z id MT))
    as (Y1 & Y2); try (apply Vs; cbn; auto 10; fail).
  rewrite <- Eid in Y1, Y2. exact (extension_plumbed H H T id k b _ (map_ext T X V KV Z b) Y1 C Y2).
Qed.
Lemma map_id_assign : id <> lit "operator=".
Proof. destruct (mt_id _ _ _ _ _ _ _ _ _ MT) as (kid & vid & [-> | ->]); discriminate. Qed.
Lemma map_construct n m st vs : mconstruct Bd n E H m st T vs = mtype_call Bd n E H m st T id vs.
Proof. unfold mconstruct. destruct (mt_carries _ _ _ _ _ _ _ _ _ MT) as (t & Et & Ei & _). now rewrite Et, Ei. Qed.
Lemma mcall_type B n m st v name vs : mcall B n E H m st v name vs = mtype_call B n E H m st (v_type v) name (v :: vs).
Proof. reflexivity. Qed.
Lemma mst : cpp_movable E T || cpp_copyable E T = true.
Proof. now rewrite Cm. Qed.
Lemma base_sub i : b + i - b = i. Proof. lia. Qed.

Context (n : nat) (m : mem) (st : state) (W : world (list (N * N))).
Context (U : unborn m (st_next st)) (MW : map_world ordered m W).

Definition map_fn (m' : mem) (v : value) (l : list (N * N)) (op : mapop) (l' : list (N * N)) (w : value) : Prop :=
  exists r, MapDoes ordered (k_dflt K) l op l' r /\ is_mapres ordered V Z KV m m' (obj v) l' w r.
Definition map_done (c : ccall mapop) (w : value) (m' : mem) (st' : state) (W' : world (list (N * N))) : Prop :=
  Effect [] (map_fn m') T m W c W' w /\ map_world ordered m' W' /\ unborn m' (st_next st') /\
  (forall o o' k a, W o <> None -> goes c w o = Some o' -> refers m o k a -> refers m' o' k a) /\
  (forall y, m y <> DNone -> not_of m W y -> m' y = m y) /\
  (forall o q a, W o <> None -> goes c w o = None -> refers m o q a -> m' (fst a) = DNone).
Notation call := (perform mapop_name Bd (S n) E H T m st).

Lemma alive_map o : W o <> None -> exists l, W o = Some l /\ is_map ordered m o l.
Proof. intros A. destruct (W o) as [l|] eqn:Q; [|congruence]. exists l. split; auto. now apply MW. Qed.
Lemma alive_old o : W o <> None -> o < st_next st.
Proof. intros A. destruct (alive_map o A) as (l & _ & ks & D & _). apply (born m _ _ U). congruence. Qed.
Lemma node_old o k a : W o <> None -> refers m o k a -> fst a < st_next st /\ W (fst a) = None.
Proof.
  intros A R. destruct (alive_map o A) as (l & _ & M). destruct (refers_data _ _ _ _ _ _ M R) as (p & D). split.
  - apply (born m _ _ U). congruence.
  - destruct (W (fst a)) as [l'|] eqn:Q; auto. destruct (proj1 MW _ _ Q) as (ks & D' & _). congruence.
Qed.

(* the world after objects were added or emptied: maps whose object and nodes stay *)
Lemma keep_map (m' : mem) o l : W o = Some l -> m' o = m o -> (forall k a, refers m o k a -> m' (fst a) = m (fst a)) -> is_map ordered m' o l.
Proof. intros Q. apply is_map_frame. now apply MW. Qed.

(* no sharing afterwards: every value of a map o was one of s o, or is new and o is f *)
Lemma apart_after (m' : mem) (W' : world (list (N * N))) (s : nat -> nat) (f : nat) :
  (forall o1 o2, s o1 = s o2 -> o1 = o2) ->
  (forall o q a, W' o <> None -> refers m' o q a -> (W (s o) <> None /\ exists q', refers m (s o) q' a) \/ (m (fst a) = DNone /\ o = f)) ->
  forall o1 o2 k1 k2 a, W' o1 <> None -> W' o2 <> None -> o1 <> o2 -> refers m' o1 k1 a -> ~ refers m' o2 k2 a.
Proof.
  intros Inj P o1 o2 k1 k2 a A1 A2 Ne R1 R2. apply P in R1; auto. apply P in R2; auto.
  assert (Old : forall o, W (s o) <> None /\ (exists q', refers m (s o) q' a) -> m (fst a) <> DNone).
  { intros o (A & q & R). destruct (alive_map _ A) as (l & _ & M). destruct (refers_data _ _ _ _ _ _ M R). congruence. }
  destruct R1 as [R1|(D1 & E1)], R2 as [R2|(D2 & E2)].
  - destruct R1 as (B1 & q1 & R1), R2 as (B2 & q2 & R2). apply (proj2 MW (s o1) (s o2) q1 q2 a B1 B2); auto.
  - now apply Old in R1.
  - now apply Old in R2.
  - congruence.
Qed.

Lemma make_ok : exists w m' st' W', call Make = Ok (w, m', st') /\ map_done Make w m' st' W'.
Proof.
  cbn [perform]. rewrite map_construct.
  rewrite (pb_new E H T id b rs mW map_plumbed map_id_assign mNV mTd mTv Bd n m st). unfold map_body. rewrite base_sub. cbn [bind].
  edestruct (finish_new E H (Fn id (Arg T Copy false) [] b)) as (log & Ef); [reflexivity|exact mTd|exact mTv|exact mst|]. rewrite Ef. clear Ef.
  set (nx := st_next st). set (w := Val (Arg T LValue false) (nx, 0%N) true). set (m' := mset m nx (DMap [])).
  exists w, m', (St (S nx) log), (upd W (obj w) []). split; [reflexivity|].
  assert (Fr : forall y, m y <> DNone -> m' y = m y) by (intros y Y; apply mset_other; intros ->; apply Y, U; unfold nx; lia).
  assert (Ao : forall o, W o <> None -> m' o = m o /\ o <> nx).
  { intros o A. pose proof (alive_old o A). split; [apply mset_other; unfold nx; lia|unfold nx; lia]. }
  split; [apply Eff_make; repeat split; apply U; cbn; unfold nx; lia|]. split; [split|split; [now apply unborn_mset|split]].
  - intros o l Q. unfold upd in Q. cbn [obj v_addr w fst] in Q. destruct (Nat.eqb_spec o nx) as [->|No].
    + injection Q as <-. apply empty_map. apply mset_same.
    + assert (A : W o <> None) by congruence. apply keep_map; [exact Q|apply Ao, A|]. intros q a R. apply Fr.
      destruct (refers_data _ _ _ _ _ _ (proj1 MW _ _ Q) R). congruence.
  - apply (apart_after m' _ (fun o => o) nx); auto. intros o q a A R. apply upd_alive in A. cbn [obj v_addr w fst] in A.
    destruct A as [-> |A]; [apply (refers_in m' nx []) in R; [destruct R as ([] & _)|apply mset_same]|].
    left. split; auto. exists q. apply (refers_frame m m'); [apply Ao, A|exact R].
  - intros o o' q a A Go R. cbn [goes] in Go. injection Go as <-. apply (refers_frame m m'); [apply Ao, A|exact R].
  - split; cycle 1.
    { intros o q a _ Go. cbn [goes] in Go. repeat destruct (_ && _) in Go; repeat destruct (Nat.eqb _ _) in Go; discriminate. }
    intros y Y _. now apply Fr.
Qed.

(* a new map: Type::construct of a handle that does not give its value away *)
Lemma copy_ok v : v_type v = T -> W (obj v) <> None -> ~ gives v ->
  exists w m' st' W', call (Copy_ v) = Ok (w, m', st') /\ map_done (Copy_ v) w m' st' W'.
Proof.
  intros Tv Av Gv. destruct (alive_map _ Av) as (l & Ql & M). destruct M as (ks & D1 & D2 & D3 & D4 & D5).
  cbn [perform]. rewrite map_construct.
  rewrite (pb_copy E H T id b rs mW map_plumbed map_id_assign mNV mTd mTv Bd n m st v Tv Gv). unfold map_body. rewrite base_sub.
  unfold map_of. fold (obj v). rewrite D1. cbn [bind].
  destruct (copy_nodes_ok ks m (st_next st) l U D2) as (m2 & nx & ks2 & Q1 & Q2 & Q3 & Q4 & Q5 & Q6 & Q7). rewrite Q1. cbn [bind].
  edestruct (finish_new E H (Fn id (Arg T Copy false) [Arg T LValue true] (b + 1))) as (log & Ef); [reflexivity|exact mTd|exact mTv|exact mst|]. rewrite Ef. clear Ef.
  set (w := Val (Arg T LValue false) (nx, 0%N) true). set (m' := mset m2 nx (DMap ks2)).
  exists w, m', (St (S nx) log), (upd W (obj w) l). split; [reflexivity|].
  assert (Fr : forall y, y < st_next st -> m' y = m y) by (intros y Y; unfold m'; rewrite mset_other by lia; now apply Q5).
  assert (Ao : forall o, W o <> None -> m' o = m o /\ o <> nx) by (intros o A; pose proof (alive_old o A); split; [now apply Fr|lia]).
  split; [apply Eff_copy; auto; repeat split; apply U; cbn; lia|]. split; [split|split; [now apply unborn_mset|split]].
  - intros o l' Q. unfold upd in Q. cbn [obj v_addr w fst] in Q. destruct (Nat.eqb_spec o nx) as [->|No].
    + injection Q as <-. exists ks2. split; [apply mset_same|]. split; [|auto]. eapply linked_frame; [exact Q4|]. intros y Y _. apply mset_other.
      intros ->. apply Y, Q3. lia.
    + assert (A : W o <> None) by congruence. apply keep_map; [exact Q|apply Ao, A|]. intros q a R. apply Fr. exact (proj1 (node_old o q a A R)).
  - apply (apart_after m' _ (fun o => o) nx); auto. intros o q a A R. apply upd_alive in A. cbn [obj v_addr w fst] in A.
    destruct A as [-> |A].
    + right. split; auto. apply (refers_node m' nx ks2) in R; [|apply mset_same]. apply Q7 in R. apply U. lia.
    + left. split; auto. exists q. apply (refers_frame m m'); [apply Ao, A|exact R].
  - intros o o' q a A Go R. assert (o' = o) as ->.
    { cbn [goes] in Go. destruct (ref_eqb _ _ && _) eqn:G; [elim Gv; now apply gives_bool|]. destruct (Nat.eqb _ _); congruence. }
    apply (refers_frame m m'); [apply Ao, A|exact R].
  - split; cycle 1.
    { intros o q a _ Go. cbn [goes] in Go. repeat destruct (_ && _) in Go; repeat destruct (Nat.eqb _ _) in Go; discriminate. }
    intros y Y _. apply Fr. now apply (born m _ _ U).
Qed.

(* and of one that does *)
Lemma move_ok v : v_type v = T -> W (obj v) <> None -> gives v ->
  exists w m' st' W', call (Copy_ v) = Ok (w, m', st') /\ map_done (Copy_ v) w m' st' W'.
Proof.
  intros Tv Av Gv. destruct (alive_map _ Av) as (l & Ql & M). pose proof M as (ks & D1 & D2 & D3 & D4 & D5). pose proof (alive_old _ Av) as Lv.
  cbn [perform]. rewrite map_construct.
  rewrite (pb_move E H T id b rs mW map_plumbed map_id_assign mNV mTd mTv Cm Bd n m st v Tv Gv). unfold map_body. rewrite base_sub.
  unfold map_of. fold (obj v). rewrite D1. cbn [bind].
  edestruct (finish_new E H (Fn id (Arg T Copy false) [Arg T RValue false] (b + 3))) as (log & Ef); [reflexivity|exact mTd|exact mTv|exact mst|]. rewrite Ef. clear Ef.
  set (nx := st_next st) in *. set (w := Val (Arg T LValue false) (nx, 0%N) true). set (m' := mset (mset m (obj v) (DMap [])) nx (DMap ks)).
  exists w, m', (St (S nx) log), (upd (upd W (obj v) []) (obj w) l). split; [reflexivity|].
  assert (Fr : forall y, y < nx -> y <> obj v -> m' y = m y) by (intros y Y Y2; unfold m'; rewrite !mset_other by (lia || auto); reflexivity).
  assert (Ew : m' nx = DMap ks) by apply mset_same.
  assert (Ev : m' (obj v) = DMap []) by (unfold m'; rewrite mset_other by lia; apply mset_same).
  assert (Nd : forall o q a, W o <> None -> refers m o q a -> m' (fst a) = m (fst a)).
  { intros o q a A R. destruct (node_old o q a A R) as (L & Na). apply Fr; auto. intros Q. rewrite Q in Na. contradiction. }
  split; [apply Eff_move; auto; repeat split; apply U; cbn; unfold nx; lia|]. split; [split|split; [|split]].
  - intros o l' Q. unfold upd in Q. cbn [obj v_addr w fst] in Q. destruct (Nat.eqb_spec o nx) as [->|No].
    + injection Q as <-. exists ks. split; [exact Ew|]. split; [|auto]. apply (is_map_frame ordered m (mset m' (obj v) (m (obj v))) (obj v) l) in M.
      * destruct M as (ks' & B1 & B2 & _). rewrite mset_same, D1 in B1. injection B1 as <-. eapply linked_frame; [exact B2|].
        intros y Y (p & Yp). destruct (Nat.eq_dec y (obj v)) as [->|Ny]; [rewrite mset_same, D1 in Yp; discriminate|]. now rewrite mset_other.
      * apply mset_same.
      * intros q a R. destruct (node_old _ q a Av R) as (_ & Na). rewrite mset_other; [exact (Nd _ q a Av R)|]. intros Q. rewrite Q in Na. contradiction.
    + fold (obj v) in Q. destruct (Nat.eqb_spec o (obj v)) as [->|No2].
      * injection Q as <-. now apply empty_map.
      * assert (A : W o <> None) by congruence. apply keep_map; [exact Q|apply Fr; auto; exact (alive_old o A)|]. intros q a R. exact (Nd o q a A R).
  - apply (apart_after m' _ (fun o => if Nat.eqb o nx then obj v else if Nat.eqb o (obj v) then nx else o) nx).
    + intros o1 o2. destruct (Nat.eqb_spec o1 nx), (Nat.eqb_spec o2 nx), (Nat.eqb_spec o1 (obj v)), (Nat.eqb_spec o2 (obj v)); subst; intros; auto; try lia.
    + intros o q a A R. apply upd_alive in A. cbn [obj v_addr w fst] in A. fold (obj v) in A.
      destruct (Nat.eqb_spec o nx) as [->|No].
      * left. split; auto. exists q. apply (refers_in m (obj v) ks); auto. now apply (refers_in m' nx ks) in R.
      * destruct A as [A|A]; [contradiction|]. apply upd_alive in A. destruct (Nat.eqb_spec o (obj v)) as [->|No2].
        { apply (refers_in m' _ []) in R; [destruct R as ([] & _)|exact Ev]. }
        destruct A as [A|A]; [contradiction|]. left. split; auto. exists q. apply (refers_frame m m'); [|exact R]. apply Fr; auto. exact (alive_old o A).
  - intros y Y. cbn in Y. unfold m'. rewrite !mset_other by lia. apply U. unfold nx in Y. lia.
  - intros o o' q a A Go R. cbn [goes] in Go. pose proof Gv as Gb. apply gives_bool in Gb. rewrite Gb in Go.
    destruct (Nat.eqb_spec o (obj v)) as [->|No]; injection Go as <-.
    + cbn [obj v_addr w fst]. apply (refers_in m' nx ks _ _ Ew). now apply (refers_in m (obj v) ks).
    + apply (refers_frame m m'); [|exact R]. apply Fr; auto. exact (alive_old o A).
  - split; cycle 1.
    { intros o q a _ Go. cbn [goes] in Go. repeat destruct (_ && _) in Go; repeat destruct (Nat.eqb _ _) in Go; discriminate. }
    intros y Y (Y1 & _). apply Fr; [now apply (born m _ _ U)|]. intros ->. contradiction.
Qed.

Lemma assign_ok v x : v_arg v = Arg T LValue false -> v_type x = T -> W (obj v) <> None -> W (obj x) <> None -> ~ gives x ->
  exists w m' st' W', call (Assign v x) = Ok (w, m', st') /\ map_done (Assign v x) w m' st' W'.
Proof.
  intros Ea Tx Av Ax Gx. assert (Tv : v_type v = T) by (unfold v_type; now rewrite Ea).
  destruct (alive_map _ Av) as (old & Qo & (ko & O1 & O2 & _)). destruct (alive_map _ Ax) as (l & Ql & (ks & D1 & D2 & D3 & D4 & D5)).
  cbn [perform]. rewrite mcall_type, Tv.
  rewrite (pb_assign E H T id b rs mW map_plumbed map_id_assign mNV mTd mTv Bd n m st v x Ea Tx Gx). unfold map_body. rewrite base_sub.
  unfold map_of. fold (obj v). fold (obj x). rewrite O1, D1. cbn [bind].
  destruct (copy_nodes_ok ks m (st_next st) l U D2) as (m2 & nx & ks2 & Q1 & Q2 & Q3 & Q4 & Q5 & Q6 & Q7). rewrite Q1. cbn [bind].
  edestruct (finish_ref E H (Fn (lit "operator=") (Arg T LValue false) [Arg T LValue false; Arg T LValue true] (b + 2))) as (log & Ef); [reflexivity|exact mTd|exact mTv|]. rewrite Ef. clear Ef.
  set (w := Val (Arg T LValue false) (v_addr v) false). set (m' := mset (free_nodes m2 ko) (obj v) (DMap ks2)).
  exists w, m', (St nx log), (upd W (obj v) l). split; [reflexivity|].
  pose proof (alive_old _ Av) as Lv.
  assert (Oo : forall y, In y (map snd ko) -> y < st_next st /\ W y = None).
  { intros y J. destruct (node_refers m (obj v) ko y O1 J) as (q & R). exact (node_old _ q _ Av R). }
  assert (Fr : forall y, y < st_next st -> y <> obj v -> ~ In y (map snd ko) -> m' y = m y).
  { intros y Y1 Y2 Y3. unfold m'. rewrite mset_other by auto. rewrite free_out by auto. now apply Q5. }
  assert (Ev : m' (obj v) = DMap ks2) by apply mset_same.
  assert (Ao : forall o, W o <> None -> o <> obj v -> m' o = m o).
  { intros o A No. apply Fr; auto; [exact (alive_old o A)|]. intros J. apply Oo in J as (_ & J). contradiction. }
  assert (New : forall y, In y (map snd ks2) -> m' y = m2 y).
  { intros y J. apply Q7 in J. unfold m'. rewrite mset_other by lia. apply free_out. intros J2. apply Oo in J2. lia. }
  split; [apply Eff_assign; auto|]. split; [split|split; [|split]].
  - intros o l' Q. unfold upd in Q. destruct (Nat.eqb_spec o (obj v)) as [->|No].
    + injection Q as <-. exists ks2. split; [exact Ev|]. split; [|auto]. exact (linked_on m2 m' ks2 l Q4 New).
    + assert (A : W o <> None) by congruence. apply keep_map; [exact Q|now apply Ao|]. intros q a R.
      destruct (node_old o q a A R) as (L & Na). apply Fr; auto; [intros Q'; rewrite Q' in Na; contradiction|].
      intros J. destruct (node_refers m (obj v) ko _ O1 J) as (q' & R'). apply (proj2 MW o (obj v) q q' a A Av No R).
      pose proof (proj1 (refers_in _ _ _ _ _ O1) R') as (B1 & _). apply (refers_in m (obj v) ko _ _ O1). split; [exact B1|].
      destruct R as (? & _ & _ & R). exact R.
  - apply (apart_after m' _ (fun o => o) (obj v)); auto. intros o q a A R. apply upd_alive in A.
    destruct (Nat.eq_dec o (obj v)) as [->|No].
    + right. split; auto. apply (refers_node m' _ ks2) in R; [|exact Ev]. apply Q7 in R. apply U. lia.
    + destruct A as [A|A]; [contradiction|]. left. split; auto. exists q. apply (refers_frame m m'); [now apply Ao|exact R].
  - intros y Y. cbn in Y. unfold m'. rewrite mset_other by lia. rewrite free_out; [now apply Q3|]. intros J. apply Oo in J. lia.
  - intros o o' q a A Go R. cbn [goes] in Go. destruct (ref_eqb _ _ && _) eqn:G in Go; [elim Gx; now apply gives_bool|].
    destruct (Nat.eqb_spec o (obj v)) as [->|No]; [discriminate|]. assert (o' = o) as -> by (destruct (Nat.eqb o (obj x)); congruence).
    apply (refers_frame m m'); [now apply Ao|exact R].
  - split; cycle 1.
    { intros o q a _ Go R. cbn [goes] in Go. destruct (Nat.eqb_spec o (obj v)) as [->|No]; [|repeat destruct (_ && _) in Go; destruct (Nat.eqb _ _) in Go; discriminate].
    apply (refers_node m _ ko _ _ O1) in R. destruct (Oo _ R) as (_ & Na). unfold m'. rewrite mset_other by (intros Q'; rewrite Q' in Na; contradiction). apply free_in. exact R. }
    intros y Y (Y1 & Y2). apply Fr; [now apply (born m _ _ U)|intros ->; contradiction|].
    intros J. destruct (node_refers m (obj v) ko y O1 J) as (q & R). exact (Y2 _ _ _ Av R).
Qed.

Lemma move_assign_ok v x : v_arg v = Arg T LValue false -> v_type x = T -> W (obj v) <> None -> W (obj x) <> None -> gives x -> obj x <> obj v ->
  exists w m' st' W', call (Assign v x) = Ok (w, m', st') /\ map_done (Assign v x) w m' st' W'.
Proof.
  intros Ea Tx Av Ax Gx Ne. assert (Tv : v_type v = T) by (unfold v_type; now rewrite Ea).
  destruct (alive_map _ Av) as (old & Qo & (ko & O1 & O2 & _)). destruct (alive_map _ Ax) as (l & Ql & (ks & D1 & D2 & D3 & D4 & D5)).
  cbn [perform]. rewrite mcall_type, Tv.
  rewrite (pb_move_assign E H T id b rs mW map_plumbed map_id_assign mNV mTd mTv Cm Bd n m st v x Ea Tx Gx). unfold map_body. rewrite base_sub.
  unfold map_of. fold (obj v). fold (obj x). rewrite O1, D1. cbn [bind].
  edestruct (finish_ref E H (Fn (lit "operator=") (Arg T LValue false) [Arg T LValue false; Arg T RValue false] (b + 4))) as (log & Ef); [reflexivity|exact mTd|exact mTv|]. rewrite Ef. clear Ef.
  set (nx := st_next st) in *. set (w := Val (Arg T LValue false) (v_addr v) false).
  set (m' := mset (mset (free_nodes m ko) (obj x) (DMap [])) (obj v) (DMap ks)).
  exists w, m', (St nx log), (upd (upd W (obj x) []) (obj v) l). split; [reflexivity|].
  pose proof (alive_old _ Av) as Lv. pose proof (alive_old _ Ax) as Lx. fold nx in Lv, Lx.
  assert (Oo : forall y, In y (map snd ko) -> y < nx /\ W y = None).
  { intros y J. destruct (node_refers m (obj v) ko y O1 J) as (q & R). exact (node_old _ q _ Av R). }
  assert (Fr : forall y, y <> obj v -> y <> obj x -> ~ In y (map snd ko) -> m' y = m y).
  { intros y Y2 Y3 Y4. unfold m'. rewrite !mset_other by auto. now rewrite free_out. }
  assert (Ev : m' (obj v) = DMap ks) by apply mset_same.
  assert (Ex : m' (obj x) = DMap []) by (unfold m'; rewrite mset_other by auto; apply mset_same).
  assert (Ao : forall o, W o <> None -> o <> obj v -> o <> obj x -> m' o = m o).
  { intros o A No No2. apply Fr; auto. intros J. apply Oo in J as (_ & J). contradiction. }
  assert (Nd : forall o q a, W o <> None -> o <> obj v -> refers m o q a -> m' (fst a) = m (fst a)).
  { intros o q a A No R. destruct (node_old o q a A R) as (L & Na).
    apply Fr; [intros Q'; rewrite Q' in Na; contradiction|intros Q'; rewrite Q' in Na; contradiction|].
    intros J. destruct (node_refers m (obj v) ko _ O1 J) as (q' & R'). apply (proj2 MW o (obj v) q q' a A Av No R).
    pose proof (proj1 (refers_in _ _ _ _ _ O1) R') as (B1 & _). apply (refers_in m (obj v) ko _ _ O1). split; [exact B1|].
    destruct R as (? & _ & _ & R). exact R. }
  split; [apply Eff_move_assign; auto|]. split; [split|split; [|split]].
  - intros o l' Q. unfold upd in Q. destruct (Nat.eqb_spec o (obj v)) as [->|No].
    + injection Q as <-. exists ks. split; [exact Ev|]. split; [|auto].
      assert (G : forall y, In y (map snd ks) -> m' y = m y).
      { intros y J. destruct (node_refers m (obj x) ks y D1 J) as (q & R). exact (Nd _ q _ Ax Ne R). }
      exact (linked_on m m' ks l D2 G).
    + destruct (Nat.eqb_spec o (obj x)) as [->|No2].
      * injection Q as <-. now apply empty_map.
      * assert (A : W o <> None) by congruence. apply keep_map; [exact Q|now apply Ao|]. intros q a R. exact (Nd o q a A No R).
  - apply (apart_after m' _ (fun o => if Nat.eqb o (obj v) then obj x else if Nat.eqb o (obj x) then obj v else o) nx).
    + intros o1 o2. destruct (Nat.eqb_spec o1 (obj v)), (Nat.eqb_spec o2 (obj v)), (Nat.eqb_spec o1 (obj x)), (Nat.eqb_spec o2 (obj x)); subst; intros; auto; congruence.
    + intros o q a A R. apply upd_alive in A. destruct (Nat.eqb_spec o (obj v)) as [->|No].
      * left. split; auto. exists q. apply (refers_in m (obj x) ks); auto. now apply (refers_in m' (obj v) ks) in R.
      * destruct A as [A|A]; [contradiction|]. apply upd_alive in A. destruct (Nat.eqb_spec o (obj x)) as [->|No2].
        { apply (refers_in m' _ []) in R; [destruct R as ([] & _)|exact Ex]. }
        destruct A as [A|A]; [contradiction|]. left. split; auto. exists q. apply (refers_frame m m'); [now apply Ao|exact R].
  - intros y Y. cbn in Y. unfold m'. rewrite !mset_other by lia. rewrite free_out; [now apply U|]. intros J. apply Oo in J. lia.
  - intros o o' q a A Go R. cbn [goes] in Go. pose proof Gx as Gb. apply gives_bool in Gb. rewrite Gb in Go.
    destruct (Nat.eqb_spec o (obj v)) as [->|No]; [discriminate|]. destruct (Nat.eqb_spec o (obj x)) as [->|No2]; injection Go as <-.
    + apply (refers_in m' (obj v) ks _ _ Ev). now apply (refers_in m (obj x) ks).
    + apply (refers_frame m m'); [now apply Ao|exact R].
  - split; cycle 1.
    { intros o q a _ Go R. cbn [goes] in Go. destruct (Nat.eqb_spec o (obj v)) as [->|No]; [|repeat destruct (_ && _) in Go; destruct (Nat.eqb _ _) in Go; discriminate].
    apply (refers_node m _ ko _ _ O1) in R. destruct (Oo _ R) as (_ & Na). unfold m'. rewrite !mset_other by (intros Q'; rewrite Q' in Na; contradiction). apply free_in. exact R. }
    intros y Y (Y1 & Y2). apply Fr; [intros ->; contradiction|intros ->; contradiction|].
    intros J. destruct (node_refers m (obj v) ko y O1 J) as (q & R). exact (Y2 _ _ _ Av R).
Qed.

Lemma member_ok v op args l : v_type v = T -> (mapop_mutates op = true -> v_arg v = Arg T LValue false) ->
  Forall2 (fun x k => holds m x X k) args (mapop_args op) -> W (obj v) = Some l -> (forall k, op = MAt k -> In k (map fst l)) ->
  exists w m' st' W', call (Member v op args) = Ok (w, m', st') /\ map_done (Member v op args) w m' st' W'.
Proof.
  intros Tv Mv Fa Ql At. assert (Av : W (obj v) <> None) by congruence.
  destruct (c66_map_behaves ordered E H K T X V KV Z id n m st v (obj v) l op args MT U (proj1 MW _ _ Ql)) as (w & m' & st' & l' & r & Q1 & Q2 & Q3 & Q4 & Q5 & Q6 & Q7 & Q8); auto.
  { destruct (mapop_mutates op); [split; auto|split; auto]. }
  exists w, m', st', (upd W (obj v) l'). split; [exact Q1|].
  assert (Ao : forall o, W o <> None -> o <> obj v -> m' o = m o).
  { intros o A No. apply Q6; auto. destruct (alive_map o A) as (l0 & _ & ks & D & _). congruence. }
  split; [eapply Eff_member; [exact Ql|exists r; auto]|]. split; [split|split; [exact Q3|split]].
  - intros o l0 Q. unfold upd in Q. destruct (Nat.eqb_spec o (obj v)) as [->|No].
    + injection Q as <-. exact Q4.
    + assert (A : W o <> None) by congruence. apply keep_map; [exact Q|now apply Ao|]. intros q a R.
      destruct (node_old o q a A R) as (L & Na). apply Q6; [intros Q'; rewrite Q' in Na; contradiction|].
      destruct (refers_data _ _ _ _ _ _ (proj1 MW _ _ Q) R). congruence.
  - apply (apart_after m' _ (fun o => o) (obj v)); auto. intros o q a A R. apply upd_alive in A.
    destruct (Nat.eq_dec o (obj v)) as [->|No].
    + apply Q8 in R as [R|R]; [left; split; eauto|right; auto].
    + destruct A as [A|A]; [contradiction|]. left. split; auto. exists q. apply (refers_frame m m'); [now apply Ao|exact R].
  - intros o o' q a A Go R. cbn [goes] in Go. injection Go as <-. destruct (Nat.eq_dec o (obj v)) as [->|No]; [now apply Q7|].
    apply (refers_frame m m'); [now apply Ao|exact R].
  - split; cycle 1.
    { intros o q a _ Go. cbn [goes] in Go. repeat destruct (_ && _) in Go; repeat destruct (Nat.eqb _ _) in Go; discriminate. }
    intros y Y (Y1 & _). apply Q6; auto. intros ->. contradiction.
Qed.

Lemma map_step_ok c : map_call_ok T X m W c -> exists w m' st' W', call c = Ok (w, m', st') /\ map_done c w m' st' W'.
Proof.
  destruct c as [|v|v x|v op args]; cbn [map_call_ok].
  - intros _. apply make_ok.
  - intros (Tv & A). destruct (gives_dec v); [now apply move_ok|now apply copy_ok].
  - intros (Ea & Tx & A1 & A2 & Ne). destruct (gives_dec x); [apply move_assign_ok; auto|now apply assign_ok].
  - intros (Tv & Mv & Fa & l & Ql & At). eapply member_ok; eauto.
Qed.
End Maps.
