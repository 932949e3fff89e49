(* PropMap.v - C66: a reflected std::map or std::unordered_map behaves like a map.
   Statements use mcall of ModelCont and the specification of SpecCont. *)
From Coq Require String.
Import String.StringSyntax.
From Coq Require Import Sorted Permutation.
From Verif Require Import Base ModelCore SpecCore ProofCore ProofMatch ExCore ProofCore2 ModelValue SpecValue ProofValue
  ModelPlumb SpecPlumb ProofPlumb ProofPlumb2 ProofPlumb3 ProofPlumb4 PropValue PropPlumb ModelCont SpecCont ProofCont ProofCont2 PropCont ProofMap.

(* every operation does what it does to a finite map; nothing else changes *)
Theorem c66_map_behaves : forall ordered E H K T X V KV Z id n m st v o l op args,
  map_type E H K T X V KV Z id -> unborn m (st_next st) -> is_map ordered m o l ->
  (if mapop_mutates op then mutable_handle T o v else handle_to T o v) ->
  Forall2 (fun x k => holds m x X k) args (mapop_args op) ->
  (forall k, op = MAt k -> In k (map fst l)) ->
  exists w m' st' l' r, mcall (map_body ordered K) (S n) E H m st v (mapop_name op) args = Ok (w, m', st') /\
    MapDoes ordered (k_dflt K) l op l' r /\
    unborn m' (st_next st') /\ is_map ordered m' o l' /\ is_mapres ordered V Z KV m m' o l' w r /\
    (forall y, y <> o -> m y <> DNone -> m' y = m y) /\
    (* references to values stay valid; new ones are to new objects *)
    (forall k a, refers m o k a -> refers m' o k a) /\
    (forall k a, refers m' o k a -> refers m o k a \/ m (fst a) = DNone).
Proof.
  intros ordered E H K T X V KV Z id n m st v o l op args MT U C Hv Fa At.
  assert (Bo : m o <> DNone) by (destruct C as (ks & Q & _); congruence).
  assert (Rk : forall m' : mem, (forall y, m y <> DNone -> m' y = m y) -> forall k a, refers m o k a -> refers m' o k a).
  { intros m' F k a (ks & R). exists ks. rewrite F by auto. exact R. }
  assert (Rn : forall m' : mem, (forall y, m y <> DNone -> m' y = m y) -> forall k a, refers m' o k a -> refers m o k a \/ m (fst a) = DNone).
  { intros m' F k a (ks & R). left. exists ks. rewrite <- F by auto. exact R. }
  destruct op as [|q|q|q|]; cbn [mapop_mutates mapop_args mapop_name] in *.
  - apply forall2_none in Fa as ->. destruct (map_size ordered E H K T X V KV Z id MT n m st v o l U C Hv) as (w & m' & st' & Q1 & Q2 & Q3 & Q4 & Q5).
    exists w, m', st', l, (MNumber (N.of_nat (length l))). split; [exact Q1|]. split; [constructor|]. repeat (split; [assumption|]). split; [auto|split; [now apply Rk|now apply Rn]].
  - apply forall2_one in Fa as (x & -> & Hx). destruct (map_count ordered E H K T X V KV Z id MT n m st v o l U C x q Hv Hx) as (w & m' & st' & r & Q1 & Q2 & Q3 & Q4 & Q5 & Q6).
    exists w, m', st', l, (MNumber r). repeat (split; [assumption|]). split; [auto|split; [now apply Rk|now apply Rn]].
  - apply forall2_one in Fa as (x & -> & Hx). destruct (map_index ordered E H K T X V KV Z id MT n m st v o l U C x q Hv Hx) as (w & m' & st' & l' & Q1 & Q2 & Q3 & Q4 & Q5 & Q6 & Q7).
    exists w, m', st', l', (MElement q true). repeat (split; [assumption|]). exact Q7.
  - apply forall2_one in Fa as (x & -> & Hx). specialize (At q eq_refl). apply in_map_iff in At as ((q' & p) & Eq & Ip). cbn in Eq. subst q'.
    destruct (map_at ordered E H K T X V KV Z id MT n m st v o l C x q Hv Hx) as (Q & _). destruct (Q p Ip) as (w & st' & Q1 & Q2 & Q3).
    exists w, m, st', l, (MElement q false). split; [exact Q1|]. split; [now apply M_at with (p := p)|]. split; [now rewrite Q2|]. auto 12.
  - apply forall2_none in Fa as ->. destruct (map_keys ordered E H K T X V KV Z id MT n m st v o l U C Hv) as (w & m' & st' & Q1 & Q2 & Q3 & Q4 & Q5).
    exists w, m', st', l, (MKeyList (map fst l)). split; [exact Q1|]. split; [constructor|]. repeat (split; [assumption|]). split; [auto|split; [now apply Rk|now apply Rn]].
Qed.
Print Assumptions c66_map_behaves.

(* at on a missing key stops the program *)
Theorem c66_at_missing_aborts : forall ordered E H K T X V KV Z id n m st v o l x k,
  map_type E H K T X V KV Z id -> is_map ordered m o l -> handle_to T o v -> holds m x X k -> ~ In k (map fst l) ->
  mcall (map_body ordered K) (S n) E H m st v (lit "at") [x] = Abort.
Proof.
  intros ordered E H K T X V KV Z id n m st v o l x k MT C Hv Hx Nk.
  destruct (map_at ordered E H K T X V KV Z id MT n m st v o l C x k Hv Hx) as (_ & Q). auto.
Qed.
Print Assumptions c66_at_missing_aborts.

(* operator[] cannot be called through a const handle or one that is not an lvalue *)
Theorem c66_const_view_has_no_index : forall ordered E H K T X V KV Z id n m st v x,
  map_type E H K T X V KV Z id -> v_type v = T -> ~ (a_ref (v_arg v) = LValue /\ a_const (v_arg v) = false) -> v_type x = X ->
  mcall (map_body ordered K) n E H m st v (lit "operator[]") [x] = Abort.
Proof. intros ordered E H K T X V KV Z id n m st v x MT. now apply (map_const_index ordered E H K T X V KV Z id MT). Qed.
Print Assumptions c66_const_view_has_no_index.

Lemma read_value ordered m o l k a : is_map ordered m o l -> refers m o k a -> forall p, In (k, p) l -> read m a = Some p.
Proof.
  intros (ks & D1 & D2 & D3 & _) (ks' & E1 & I2 & Ea) p Ip. assert (ks' = ks) as -> by congruence. clear - D2 D3 Ip I2 Ea.
  unfold read. rewrite Ea. cbn. revert D3 Ip I2. induction D2 as [|[x n] [y q] ks l (E1 & E2) F IH]; intros N Ip I2; [contradiction|].
  cbn in *. subst y. inversion N; subst. pose proof (linked_fst _ _ _ F) as Ek. destruct I2 as [Q|Q].
  - injection Q as -> ->. destruct Ip as [Q|Q]; [injection Q as ->; now rewrite E2|]. elim H1. apply in_map_iff. now exists (k, p).
  - destruct Ip as [Q2|Q2].
    + injection Q2 as -> ->. elim H1. rewrite <- Ek. apply in_map_iff. now exists (k, fst a).
    + apply IH; auto.
Qed.

(* and so does any number of them *)
Theorem c66_history : forall ordered E H K T X V KV Z id n v o ops steps m st l,
  map_type E H K T X V KV Z id -> mutable_handle T o v -> unborn m (st_next st) -> is_map ordered m o l ->
  Forall2 (fun step op => fst step = mapop_name op /\
     Forall2 (fun x k => holds m x X k /\ fst (v_addr x) <> o) (snd step) (mapop_args op)) steps ops ->
  keys_known (map fst l) ops ->
  exists ws m' st' l' rs, mcalls (map_body ordered K) (S n) E H m st v steps = Ok (ws, m', st') /\
    MapRuns ordered (k_dflt K) l ops l' rs /\
    unborn m' (st_next st') /\ is_map ordered m' o l' /\ Forall2 (still_mapres V Z KV m' o l') ws rs /\
    (forall y, y <> o -> m y <> DNone -> m' y = m y) /\ (forall k a, refers m o k a -> refers m' o k a).
Proof.
  intros ordered E H K T X V KV Z id n v o ops steps m st l MT Mv.
  assert (Hv : handle_to T o v) by (destruct Mv as (Q & Q'); split; auto; unfold v_type; now rewrite Q).
  revert steps m st l. induction ops as [|op ops IH]; intros steps m st l U C F Kk.
  - inversion F; subst. exists [], m, st, l, []. cbn [mcalls]. repeat (split; [auto; constructor|]). auto.
  - inversion F as [|(name & args) a xs ys (En & Fa) Fr]; subst. cbn [fst snd] in *. subst name.
    destruct (c66_map_behaves ordered E H K T X V KV Z id n m st v o l op args MT U C) as (w & m1 & st1 & l1 & r & Q1 & Q2 & Q3 & Q4 & Q5 & Q6 & Q7 & _).
    { destruct (mapop_mutates op); auto. }
    { eapply forall2_impl; [|exact Fa]. intros x y (? & _). auto. }
    { intros k ->. apply Kk. }
    assert (Kk1 : keys_known (map fst l1) ops).
    { assert (Mono : forall ops a b, incl a b -> keys_known a ops -> keys_known b ops).
      { clear. induction ops as [|op ops IH]; intros a b Iab; cbn; auto. destruct op; auto.
        - eauto. - eauto. - apply IH. intros x [<-|I0]; [now left|right; auto]. - intros (J1 & J2). split; eauto. - eauto. }
      inversion Q2; subst; cbn in Kk; auto.
      - eapply Mono; [|exact Kk]. intros x [<-|I0]; auto. apply in_map_iff. now exists (k, p).
      - eapply Mono; [|exact Kk]. intros x Ix. apply (Permutation_in x (Permutation_map fst (Permutation_sym H1))). exact Ix.
      - apply Kk. }
    destruct (IH xs m1 st1 l1 Q3 Q4) as (ws & m2 & st2 & l2 & rs & P1 & P2 & P3 & P4 & P5 & P6 & P7); auto.
    { eapply forall2_impl; [|exact Fr]. intros (nm & vs) op' (A1 & A2). cbn [fst snd] in *. split; [exact A1|].
      eapply forall2_impl; [|exact A2]. intros x k ((H1 & H2) & Nx). split; [|exact Nx]. split; [exact H1|].
      unfold read in *. rewrite Q6; auto. intro Q. rewrite Q in H2. discriminate. }
    exists (w :: ws), m2, st2, l2, (r :: rs). cbn [mcalls]. rewrite Q1. cbn [bind]. rewrite P1. cbn [bind]. split; [reflexivity|].
    split; [econstructor; eauto|]. split; [exact P3|]. split; [exact P4|]. split; [|split].
    + constructor; auto. destruct Q4 as (ks & Ko & _). destruct r as [r|k b|kl]; cbn in Q5 |- *.
      * destruct Q5 as (B1 & B2 & B3 & B4). repeat (split; [assumption|]). rewrite P6; auto; congruence.
      * destruct Q5 as (B1 & B2 & B3 & _). repeat (split; [assumption|]). split; [now apply P7|]. now apply (read_value ordered m2 o l2); auto; apply P7.
      * destruct Q5 as (B1 & B2 & B3 & buf & B4 & B5). repeat (split; [assumption|]). exists buf.
        rewrite !P6; auto; congruence.
    + intros y Y1 Y2. assert (Q8 : m1 y = m y) by (now apply Q6). rewrite P6; auto. congruence.
    + auto.
Qed.
Print Assumptions c66_history.

Lemma contHeap_map (b : bool) : map_type contCpp contHeap (Cont (if b then 160 else 180) 0 7) (if b then 5 else 6) 3 3 4 2
  (if b then lit "std::map<int,int>" else lit "std::unordered_map<int,int>").
Proof.
  constructor.
  - apply contHeap_wf.
  - exists (lit "int"), (lit "int"). destruct b; auto.
  - apply carriesb_ok. destruct b; vm_compute; reflexivity.
  - split; [discriminate|]. destruct b; repeat constructor; discriminate.
  - unfold valid. repeat constructor; vm_compute; lia.
  - cnoconv.
  - split; reflexivity.
Qed.

(* object 10: a map with the keys 3 and 8; 13 and 14 hold keys *)
Definition mapMem : mem := fun o =>
  match o with 10 => DMap [(3%N, 11); (8%N, 12)] | 11 => DData 5%N | 12 => DData 6%N | 13 => DData 8%N | 14 => DData 4%N | _ => DNone end.
Definition mapH : value := Val (Arg 5 LValue false) (10, 0%N) false.
Example c66_ex : exists ws m' st',
  mcalls (map_body true (Cont 160 0 7)) 1 contCpp contHeap mapMem (St 20 []) mapH
    [ (lit "count", [Val (Arg 3 LValue false) (14, 0%N) false]); (lit "operator[]", [Val (Arg 3 LValue true) (14, 0%N) false]);
      (lit "at", [Val (Arg 3 LValue false) (14, 0%N) false]); (lit "at", [Val (Arg 3 LValue false) (13, 0%N) false]); (lit "keys", []); (lit "size", []) ]
    = Ok (ws, m', st') /\
  is_map true m' 10 [(3, 5); (4, 0); (8, 6)]%N /\ map (fun w => fst (v_addr w)) ws = [20; 21; 21; 12; 23; 24] /\
  map_type contCpp contHeap (Cont 160 0 7) 5 3 3 4 2 (lit "std::map<int,int>") /\ unborn mapMem 20 /\ is_map true mapMem 10 [(3, 5); (8, 6)]%N /\
  mcall (map_body true (Cont 160 0 7)) 1 contCpp contHeap mapMem (St 20 []) mapH (lit "at") [Val (Arg 3 LValue false) (14, 0%N) false] = Abort.
Proof.
  do 3 eexists. split; [vm_compute; reflexivity|]. split.
  { exists [(3%N, 11); (4%N, 21); (8%N, 12)]. repeat split; repeat constructor; cbn; try lia; intuition discriminate. }
  split; [reflexivity|]. split; [exact (contHeap_map true)|]. split.
  { intros o Lo. unfold mapMem. do 20 (destruct o as [|o]; [lia|]). reflexivity. }
  split. { exists [(3%N, 11); (8%N, 12)]. repeat split; repeat constructor; cbn; try lia; intuition discriminate. }
  vm_compute. reflexivity.
Qed.
