(* PropLoad.v - property C70: types loading one another on demand; C57 in a
   program of any shape. *)
From Coq Require String.
Import String.StringSyntax.
From Coq Require Import Relations Permutation.
From Verif Require Import Base ModelCore SpecCore ProofCore ProofMatch ProofCore2 ModelPlumb SpecPlumb ProofPlumb
  ProofPlumb2 ProofPlumb3 ModelLoad SpecLoad ProofLoad ProofLoad2 ProofLoad3.
Local Open Scope outcome_scope.

(* A program that asks for the types ts: each of them and every type they need is
   loaded in full, the others are untouched. *)
Theorem c70_loaded_in_full : forall P ts st, run_loads P ts = Ok st -> forall T,
  ((exists t, In t ts /\ needs P t T) ->
     exists d t, nth_error (p_decls P) T = Some d /\ tget (l_heap st) T = Some t /\ holds d t) /\
  (~ (exists t, In t ts /\ needs P t T) ->
     forall d, nth_error (p_decls P) T = Some d -> tget (l_heap st) T = Some (newType (d_id d))).
Proof.
  intros P ts st E T. destruct (run_loads_ok P ts st E) as (Sh & B & C & N). split.
  - intro X. apply N in X. destruct (C T X) as (d & E1 & E2 & E3 & _). eauto.
  - intros X d Ed. apply B; auto. intro Y. apply X. now apply N.
Qed.
Print Assumptions c70_loaded_in_full.

Lemma nth_ext_eq {A} (l m : list A) : (forall i, nth_error l i = nth_error m i) -> l = m.
Proof.
  revert m. induction l as [|x l IH]; intros [|y m] F; auto; [specialize (F 0); discriminate|specialize (F 0); discriminate|].
  pose proof (F 0) as F0. injection F0 as <-. f_equal. apply IH. intro i. exact (F (S i)).
Qed.
Lemma heap_ext H H' : length (h_types H) = length (h_types H') -> h_void H = h_void H' -> h_value H = h_value H' ->
  (forall T, T < length (h_types H) -> tget H T = tget H' T) -> H = H'.
Proof.
  destruct H as [l v w], H' as [l' v' w']. cbn. intros L -> -> F. f_equal. unfold tget in F. cbn in F.
  apply nth_ext_eq. intro i. destruct (Nat.lt_ge_cases i (length l)) as [X|X]; [auto|].
  rewrite (proj2 (nth_error_None l i)) by auto. symmetry. apply nth_error_None. lia.
Qed.

(* The order of the requests does not matter, as long as all loads succeed. *)
Theorem c70_order_irrelevant : forall P ts ts' st st', run_loads P ts = Ok st -> run_loads P ts' = Ok st' ->
  (forall T, (exists t, In t ts /\ needs P t T) <-> (exists t, In t ts' /\ needs P t T)) ->
  l_heap st = l_heap st'.
Proof.
  intros P ts ts' st st' E E' N. destruct (run_loads_ok P ts st E) as (Sh & B & C & NS). destruct (run_loads_ok P ts' st' E') as (Sh' & B' & C' & NS').
  destruct Sh as (L & Vo & Va), Sh' as (L' & Vo' & Va'). apply heap_ext; try congruence. intros T HT. rewrite L in HT.
  destruct (in_dec_n T (l_started st)) as [I|I].
  - assert (I' : In T (l_started st')) by (apply NS', N, NS; exact I).
    destruct (C T I) as (d & E1 & E2 & _), (C' T I') as (d' & E1' & E2' & _). congruence.
  - assert (I' : ~ In T (l_started st')) by (intro X; apply I, NS, N, NS'; exact X).
    destruct (nth_error (p_decls P) T) as [d|] eqn:Ed; [|apply nth_error_None in Ed; lia].
    now rewrite (B T d Ed I), (B' T d Ed I').
Qed.
Print Assumptions c70_order_irrelevant.

Theorem c70_permuted_requests : forall P ts ts' st st', Permutation ts ts' -> run_loads P ts = Ok st -> run_loads P ts' = Ok st' ->
  l_heap st = l_heap st'.
Proof.
  intros P ts ts' st st' Pm E E'. apply (c70_order_irrelevant P ts ts'); auto.
  intro T. split; intros (t & I & N); exists t; split; auto; [eapply Permutation_in; eauto|eapply Permutation_in; [apply Permutation_sym|]; eauto].
Qed.
Print Assumptions c70_permuted_requests.

(* Once loaded, a type never changes again. *)
Theorem c70_stable : forall P ts ts' st st', run_loads P ts = Ok st -> run_loads P (ts ++ ts') = Ok st' ->
  forall T, (exists t, In t ts /\ needs P t T) -> tget (l_heap st') T = tget (l_heap st) T.
Proof.
  intros P ts ts' st st' E E' T X. destruct (run_loads_ok P ts st E) as (_ & _ & C & NS). destruct (run_loads_ok P _ st' E') as (_ & _ & C' & NS').
  assert (I : In T (l_started st)) by now apply NS.
  assert (I' : In T (l_started st')).
  { apply NS'. destruct X as (t & J & N). exists t. split; auto. apply in_or_app. now left. }
  destruct (C T I) as (d & E1 & E2 & _), (C' T I') as (d' & E1' & E2' & _). congruence.
Qed.
Print Assumptions c70_stable.

(* Loading ends, however the types refer to each other: with all types loaded, or
   with a registration error. *)
Theorem c70_terminates : forall P ts, sane P -> (forall t, In t ts -> t < length (p_decls P)) ->
  (exists st, run_loads P ts = Ok st) \/ run_loads P ts = Abort.
Proof.
  intros P ts S0 V. destruct (run_loads_fine P S0 false ts) as [X|(_ & X)]; auto. discriminate.
Qed.
Print Assumptions c70_terminates.

(* With overloads that are told apart by what is declared, loading succeeds in any
   order. *)
Theorem c70_always_loads : forall P ts, well_kept P -> (forall t, In t ts -> t < length (p_decls P)) ->
  exists st, run_loads P ts = Ok st.
Proof.
  intros P ts W V. destruct (run_loads_fine P (well_kept_sane P W) true ts) as [X|(X & _)]; auto; [|discriminate].
  intros _. apply (wk_kept P W).
Qed.
Print Assumptions c70_always_loads.

Lemma run_loads_stage P ts st : run_loads P ts = Ok st -> stage P (l_heap st).
Proof.
  intro E. destruct (run_loads_ok P ts st E) as (Sh & B & C & _). split; [exact Sh|]. intros U d Ed.
  destruct (in_dec_n U (l_started st)) as [I|I].
  - destruct (C U I) as (d' & E1 & E2 & _). rewrite Ed in E1. injection E1 as <-. exists (d_body d), []. split; [now rewrite app_nil_r|exact E2].
  - exists [], (d_body d). split; [reflexivity|]. now apply B.
Qed.

(* and then the graph is sound and no overload set has an interchangeable pair *)
Theorem c70_sound_result : forall P ts st, well_kept P -> run_loads P ts = Ok st ->
  wf_heap (l_heap st) /\
  forall T t n os1 f os2 g os3, tget (l_heap st) T = Some t -> afind n (t_fns t) = Some (os1 ++ f :: os2 ++ g :: os3) ->
    exists m, test_fn (l_heap st) g f = Ok m /\ m <> MExact.
Proof.
  intros P ts st W E. pose proof (run_loads_stage P ts st E) as St. pose proof (well_kept_sane P W) as S0.
  assert (WF : wf_heap (l_heap st)) by (eapply stage_wf; eauto). split; [exact WF|].
  intros T t n os1 f os2 g os3 Et Ef. destruct (stage_tget P _ _ _ St Et) as (d & pre & post & Ed & Eb & ->).
  destruct (lbuilt_loaded (d_id d) pre) as (_ & _ & _ & _ & L5). destruct (loaded_spec (d_id d) (regs pre)) as (_ & _ & _ & _ & _ & _ & I7).
  rewrite L5, I7 in Ef.
  assert (Ef' : fns_of n (regs pre) = os1 ++ f :: os2 ++ g :: os3) by (destruct (fns_of n (regs pre)); congruence). clear Ef.
  assert (K : kept P T). { apply (wk_kept P W). apply nth_error_Some. congruence. }
  pose proof (ke_apart P T K) as FP. rewrite (body_at P _ _ Ed), Eb, regs_app in FP. apply FOP_app_inv in FP as (FP & _ & _).
  (* the two overloads come from two registrations *)
  assert (Sp : forall rs l x r, fns_of n rs = l ++ x :: r -> exists rs1 y rs2, rs = rs1 ++ y :: rs2 /\ fns_of n rs1 = l /\
    (exists rt ar cd, y = RFn n rt ar cd /\ x = Fn n rt ar cd) /\ fns_of n rs2 = r).
  { clear. induction rs as [|y rs IH]; intros l x r E; [destruct l; discriminate|]. cbn in E. fold (fns_of n rs) in E.
    assert (Else : fns_of n rs = l ++ x :: r -> fns_of n [y] = [] -> exists rs1 y0 rs2, y :: rs = rs1 ++ y0 :: rs2 /\ fns_of n rs1 = l /\
      (exists rt ar cd, y0 = RFn n rt ar cd /\ x = Fn n rt ar cd) /\ fns_of n rs2 = r).
    { intros E' Ey. destruct (IH _ _ _ E') as (rs1 & z & rs2 & -> & E1 & E2 & E3). exists (y :: rs1), z, rs2. split; [reflexivity|].
      split; [|auto]. change (y :: rs1) with ([y] ++ rs1). unfold fns_of in *. rewrite flat_map_app, E1. cbn in Ey |- *. rewrite app_nil_r in Ey. rewrite Ey. reflexivity. }
    destruct y as [m|m rt ar cd|k p]; cbn [app] in E; try (apply Else; [exact E|reflexivity]).
    destruct (str_eqb n m) eqn:En; [|apply Else; [exact E|cbn; now rewrite En]].
    apply str_eqb_eq in En as <-. destruct l as [|z l]; cbn in E; injection E as E1 E2.
    - exists [], (RFn n rt ar cd), rs. split; [reflexivity|]. split; [reflexivity|]. split; [|exact E2]. exists rt, ar, cd. auto.
    - destruct (IH _ _ _ E2) as (rs1 & w & rs2 & -> & F1 & F2 & F3). exists (RFn n rt ar cd :: rs1), w, rs2. split; [reflexivity|].
      split; [|auto]. cbn. rewrite str_eqb_refl. cbn. fold (fns_of n rs1). rewrite F1, E1. reflexivity. }
  destruct (Sp _ _ _ _ Ef') as (r1 & y & r2 & Er & _ & (rt & ar & cd & -> & ->) & Ef2).
  destruct (Sp _ _ _ _ Ef2) as (r3 & z & r4 & Er2 & _ & (rt' & ar' & cd' & -> & ->) & _).
  rewrite Er, Er2 in FP. apply FOP_app_inv in FP as (_ & FP & _). assert (F1 : Forall (overload_pair P (RFn n rt ar cd)) (r3 ++ RFn n rt' ar' cd' :: r4)) by (inversion FP; assumption).
  rewrite Forall_forall in F1. specialize (F1 (RFn n rt' ar' cd')). cbn in F1.
  assert (A : apart P ar ar') by (apply F1; [apply in_or_app; right; now left|reflexivity]).
  assert (Fv : forall a b c, In (RFn n a b c) (regs pre) -> fn_valid (l_heap st) (Fn n a b c)).
  { intros a b c I. apply In_regs in I.
    assert (Kn : forall U, In U (asks (LReg (RFn n a b c))) -> valid (l_heap st) U).
    { intros U J. unfold valid. rewrite (proj1 (proj1 St)). apply (sa_known P S0 T U). exists (LReg (RFn n a b c)). rewrite (body_at P _ _ Ed), Eb.
      split; [apply in_or_app; auto|now apply mentions_asks]. }
    split; [apply Kn; now left|]. apply Forall_forall. intros x Ix. apply Kn. right. now apply in_map. }
  assert (V1 : fn_valid (l_heap st) (Fn n rt ar cd)) by (apply Fv; rewrite Er; apply in_or_app; right; now left).
  assert (V2 : fn_valid (l_heap st) (Fn n rt' ar' cd')) by (apply Fv; rewrite Er, Er2; apply in_or_app; right; right; apply in_or_app; right; now left).
  destruct (test_sig_total _ (Fn n rt' ar' cd') rt ar WF V2 (proj1 V1) (proj2 V1)) as [m Em]. exists m. split; [exact Em|].
  apply (test_fn_not_exact (l_heap st) (Fn n rt' ar' cd') (Fn n rt ar cd) m Em).
  destruct A as [D|(i & a & t & E1 & E2 & D)]; [now left|right]. exists i, a, t. split; [exact E1|]. split; [exact E2|].
  intros gg Eg. apply (unlike_sound P S0 _ a t gg St); auto.
  - destruct V1 as [_ X]. eapply Forall_forall; [exact X|]. eapply nth_error_In; eauto.
  - destruct V2 as [_ X]. eapply Forall_forall; [exact X|]. eapply nth_error_In; eauto.
Qed.
Print Assumptions c70_sound_result.

(* The library's own types never are the problem: their bodies are accepted in
   whatever order the types of the program are asked for. *)
Theorem c70_library_loads : forall P ts, sane P -> one_pointer P ->
  (forall T, T < length (p_decls P) -> kept P T \/ (T <> p_value P /\ plain_body P T /\ library P T)) ->
  (forall t, In t ts -> t < length (p_decls P)) ->
  exists st, run_loads P ts = Ok st.
Proof.
  intros P ts S0 OP Al V. apply c70_always_loads; auto. constructor; try apply S0.
  intros T HT. destruct (Al T HT) as [K|(N & PB & L)]; [exact K|]. now apply library_kept.
Qed.
Print Assumptions c70_library_loads.

(* A program that meets all this: a list node with a pointer to its own class, a
   vector of such pointers, a shared pointer and a derived class. *)
Definition full := Caps true true true true true.
Definition node_body : list lreg :=
  map LReg (plumbing (lit "Node") 6 full 0)
  ++ [ LField (lit "next") (Arg 7 Copy false) 0; LField (lit "value") (Arg 3 Copy false) 8;
       LField (lit "all") (Arg 8 Copy false) 16;
       LReg (RFn (lit "find") (Arg 7 Copy false) [Arg 6 LValue false; Arg 3 Copy false] 5);
       LReg (RFn (lit "find") (Arg 7 Copy false) [Arg 6 LValue true; Arg 3 Copy false; Arg 3 Copy false] 6) ].
Definition node_prog : program := Program
  [ Decl (lit "void") (map LReg [RTrait (lit "primitive"); RTrait (lit "void")]);
    Decl (lit "reflect::Value") [];
    Decl (lit "bool") (map LReg (number (lit "bool") 2 5 3 NBool full 10));
    Decl (lit "int") (map LReg (number (lit "int") 3 4 3 NSigned full 20));
    Decl (lit "int" ++ lit "*") (map LReg (rawPointer (lit "int" ++ lit "*") 4 3 2 full 30));
    Decl (lit "bool" ++ lit "*") (map LReg (rawPointer (lit "bool" ++ lit "*") 5 2 2 full 40));
    Decl (lit "Node") node_body;
    Decl (lit "Node" ++ lit "*") (map LReg (rawPointer (lit "Node" ++ lit "*") 7 6 2 full 50));
    Decl (lit "std::vector<" ++ lit "Node*" ++ lit ">") (LUse 7 :: map LReg (stdVector (lit "std::vector<" ++ lit "Node*" ++ lit ">") 8 7 3 0 full 60));
    Decl (lit "std::shared_ptr<" ++ lit "Node" ++ lit ">") (map LReg (sharedPtr (lit "std::shared_ptr<" ++ lit "Node" ++ lit ">") 9 6 7 2 0 full 80));
    Decl (lit "Leaf") (LParent 6 :: map LReg (plumbing (lit "Leaf") 10 full 100)) ] 0 1.

Lemma each_decl P (Q : tptr -> lreg -> Prop) : (forall i d, nth_error (p_decls P) i = Some d -> Forall (Q i) (d_body d)) ->
  forall T r, In r (body_of P T) -> Q T r.
Proof.
  intros F T r I. unfold body_of in I. destruct (nth_error (p_decls P) T) as [d|] eqn:E; [|destruct I].
  specialize (F T d E). rewrite Forall_forall in F. auto.
Qed.
Definition known_b (P : program) : bool :=
  forallb (fun d => forallb (fun r => forallb (fun U => U <? length (p_decls P)) (asks r)) (d_body d)) (p_decls P).
Lemma known_b_ok P : known_b P = true -> forall T U, names P T U -> U < length (p_decls P).
Proof.
  intros K T U (r & I & J). apply mentions_asks in J. unfold known_b in K. rewrite forallb_forall in K.
  unfold body_of in I. destruct (nth_error (p_decls P) T) as [d|] eqn:E; [|destruct I].
  specialize (K d (nth_error_In _ _ E)). rewrite forallb_forall in K. specialize (K r I). rewrite forallb_forall in K.
  apply Nat.ltb_lt, K, J.
Qed.
Definition links_of (rs : list lreg) : list tptr :=
  flat_map (fun r => match r with LParent p | LReg (RPointer _ p) => [p] | _ => [] end) rs.
Definition ranked_b (P : program) (rank : tptr -> nat) : bool :=
  forallb (fun T => forallb (fun p => rank p <? rank T) (links_of (body_of P T))) (seq 0 (length (p_decls P))).
Lemma ranked_b_ok P rank : ranked_b P rank = true -> acyclic P.
Proof.
  intro K. exists rank. intros a p X. unfold ranked_b in K. rewrite forallb_forall in K.
  assert (I : In p (links_of (body_of P a))).
  { apply in_flat_map. destruct X as [I|(k & I)]; eexists; (split; [exact I|]); now left. }
  assert (L : a < length (p_decls P)).
  { unfold body_of in I. destruct (nth_error (p_decls P) a) eqn:E; [apply nth_error_Some; congruence|destruct I]. }
  specialize (K a). rewrite forallb_forall in K. apply Nat.ltb_lt, K; auto. apply in_seq. lia.
Qed.
Definition pointers_of (rs : list lreg) : list (str * tptr) :=
  flat_map (fun r => match r with LReg (RPointer k p) => [(k, p)] | _ => [] end) rs.
Lemma one_pointer_ok P : (forall T, T < length (p_decls P) -> length (pointers_of (body_of P T)) <= 1) -> one_pointer P.
Proof.
  intros L T k k' p p' I I'.
  assert (V : T < length (p_decls P)).
  { unfold body_of in I. destruct (nth_error (p_decls P) T) eqn:E; [apply nth_error_Some; congruence|destruct I]. }
  specialize (L T V).
  assert (M : forall a b, In (LReg (RPointer a b)) (body_of P T) -> In (a, b) (pointers_of (body_of P T))).
  { intros a b J. apply in_flat_map. eexists. split; [exact J|now left]. }
  apply M in I, I'. destruct (pointers_of (body_of P T)) as [|x [|y l]]; [destruct I| |cbn in L; lia].
  destruct I as [->|[]], I' as [E|[]]. congruence.
Qed.

Lemma node_below T : T < length (p_decls node_prog) -> T = 0 \/ T = 1 \/ T = 2 \/ T = 3 \/ T = 4 \/ T = 5 \/ T = 6 \/ T = 7 \/ T = 8 \/ T = 9 \/ T = 10.
Proof. cbn. lia. Qed.
Lemma node_sane : sane node_prog.
Proof.
  constructor; try (cbn; lia).
  - apply (ranked_b_ok node_prog (fun T => T)). reflexivity.
  - apply known_b_ok. reflexivity.
  - intros T I. apply In_regs in I.
    assert (X : existsb (fun r => match r with LReg (RTrait n) => str_eqb n (lit "pointer") | _ => false end) (body_of node_prog T) = true).
    { apply existsb_exists. eexists. split; [exact I|]. apply str_eqb_refl. }
    assert (L : T < length (p_decls node_prog)).
    { unfold body_of in I. destruct (nth_error (p_decls node_prog) T) eqn:E; [apply nth_error_Some; congruence|destruct I]. }
    apply node_below in L. repeat destruct L as [->|L]; try subst T; discriminate X.
Qed.
Lemma plain_map P T l : body_of P T = map LReg l -> plain_body P T.
Proof. intros E r I. rewrite E in I. apply in_map_iff in I as (g & <- & _). eauto. Qed.

Lemma same_type_apart P l m i a t : nth_error l i = Some a -> nth_error m i = Some t -> a_type a = a_type t ->
  ~ same_category a t -> apart P l m.
Proof. intros A B C D. right. exists i, a, t. split; [exact A|]. split; [exact B|]. now left. Qed.

Example c70_node_hypotheses : sane node_prog /\ one_pointer node_prog /\
  (forall T, T < length (p_decls node_prog) -> kept node_prog T \/ (T <> p_value node_prog /\ plain_body node_prog T /\ library node_prog T)).
Proof.
  split; [exact node_sane|]. split.
  { apply one_pointer_ok. intros T L. apply node_below in L. repeat destruct L as [->|L]; try subst T; apply Nat.leb_le; reflexivity. }
  intros T L. apply node_below in L. destruct L as [->|[->|[->|[->|[->|[->|[->|[->|[->|[->| ->]]]]]]]]]].
  - right. split; [cbn; lia|]. split; [eapply plain_map; reflexivity|]. apply Lib_void. reflexivity.
  - left. constructor; [apply known_b_ok; reflexivity|intros n a off []|constructor|intros n a off []|constructor|intros []|constructor].
  - right. split; [cbn; lia|]. split; [eapply plain_map; reflexivity|]. eapply (Lib_number _ _ (lit "bool") 5 3 NBool full 10); [reflexivity| |reflexivity].
    intro I. in_cases I.
  - right. split; [cbn; lia|]. split; [eapply plain_map; reflexivity|]. eapply (Lib_number _ _ (lit "int") 4 3 NSigned full 20); [reflexivity| |reflexivity].
    intro I. in_cases I.
  - right. split; [cbn; lia|]. split; [eapply plain_map; reflexivity|]. eapply (Lib_pointer _ _ (lit "int") 3 2 full 30); [reflexivity|discriminate|reflexivity].
  - right. split; [cbn; lia|]. split; [eapply plain_map; reflexivity|]. eapply (Lib_pointer _ _ (lit "bool") 2 2 full 40); [reflexivity|discriminate|reflexivity].
  - left. constructor.
    + apply known_b_ok. reflexivity.
    + intros n a off I. cbn -[lit] in I. in_cases I; injection I as <- <- <-; reflexivity.
    + cbn -[lit]. repeat constructor; intro X; cbn -[lit] in X; intuition discriminate.
    + intros n a off I. cbn -[lit] in I. in_cases I; injection I as <- <- <-; reflexivity.
    + cbn. repeat constructor; intro X; cbn in X; intuition discriminate.
    + apply (sa_pointer _ node_sane).
    + assert (E : regs (body_of node_prog 6) = [ RTrait (lit "sizeof"); RFn (lit "Node") (Arg 6 Copy false) [] 0;
        RFn (lit "Node") (Arg 6 Copy false) [Arg 6 LValue true] 1;
        RFn (lit "operator=") (Arg 6 LValue false) [Arg 6 LValue false; Arg 6 LValue true] 2;
        RFn (lit "Node") (Arg 6 Copy false) [Arg 6 RValue false] 3;
        RFn (lit "operator=") (Arg 6 LValue false) [Arg 6 LValue false; Arg 6 RValue false] 4;
        RFn (lit "find") (Arg 7 Copy false) [Arg 6 LValue false; Arg 3 Copy false] 5;
        RFn (lit "find") (Arg 7 Copy false) [Arg 6 LValue true; Arg 3 Copy false; Arg 3 Copy false] 6 ]) by reflexivity.
      rewrite E. repeat first [apply FOP_nil | apply FOP_cons]; repeat first [apply Forall_nil | apply Forall_cons];
        try exact Logic.I; cbn -[lit]; intro X; try discriminate X; try (left; cbn; lia);
        first [eapply (same_type_apart _ _ _ 0); [reflexivity|reflexivity|reflexivity|]; intros [[Y Z]|[Y Z]]; discriminate
              |eapply (same_type_apart _ _ _ 1); [reflexivity|reflexivity|reflexivity|]; intros [[Y Z]|[Y Z]]; discriminate].
  - right. split; [cbn; lia|]. split; [eapply plain_map; reflexivity|]. eapply (Lib_pointer _ _ (lit "Node") 6 2 full 50); [reflexivity|discriminate|reflexivity].
  - right. split; [cbn; lia|]. split.
    + intros r [<-|I]; [left; eauto|right]. apply in_map_iff in I as (g & <- & _). eauto.
    + eapply (Lib_vector _ _ (lit "Node*") 7 3 full 60); reflexivity.
  - right. split; [cbn; lia|]. split; [eapply plain_map; reflexivity|].
    eapply (Lib_shared _ _ (lit "Node") 6 7 2 full 80); [reflexivity| |cbn; lia|reflexivity].
    apply In_regs. unfold body_of. cbn -[lit]. do 7 right. now left.
  - left. constructor.
    + apply known_b_ok. reflexivity.
    + intros n a off I. cbn -[lit] in I. in_cases I.
    + cbn. constructor.
    + intros n a off I. cbn -[lit] in I. in_cases I.
    + cbn. repeat constructor; intro X; cbn in X; intuition discriminate.
    + apply (sa_pointer _ node_sane).
    + assert (E : regs (body_of node_prog 10) = [ RTrait (lit "sizeof"); RFn (lit "Leaf") (Arg 10 Copy false) [] 100;
        RFn (lit "Leaf") (Arg 10 Copy false) [Arg 10 LValue true] 101;
        RFn (lit "operator=") (Arg 10 LValue false) [Arg 10 LValue false; Arg 10 LValue true] 102;
        RFn (lit "Leaf") (Arg 10 Copy false) [Arg 10 RValue false] 103;
        RFn (lit "operator=") (Arg 10 LValue false) [Arg 10 LValue false; Arg 10 RValue false] 104 ]) by reflexivity.
      rewrite E. repeat first [apply FOP_nil | apply FOP_cons]; repeat first [apply Forall_nil | apply Forall_cons];
        try exact Logic.I; cbn -[lit]; intro X; try discriminate X; try (left; cbn; lia);
        first [eapply (same_type_apart _ _ _ 0); [reflexivity|reflexivity|reflexivity|]; intros [[Y Z]|[Y Z]]; discriminate
              |eapply (same_type_apart _ _ _ 1); [reflexivity|reflexivity|reflexivity|]; intros [[Y Z]|[Y Z]]; discriminate].
Qed.
Example c70_node_order : exists st st', run_loads node_prog [10] = Ok st /\ run_loads node_prog [9; 8; 3; 10] = Ok st' /\
  tget (l_heap st) 6 = tget (l_heap st') 6 /\ (exists t, tget (l_heap st) 6 = Some t /\ length (t_fields t) = 3) /\
  tget (l_heap st) 9 <> tget (l_heap st') 9.
Proof.
  do 2 eexists. split; [vm_compute; reflexivity|]. split; [vm_compute; reflexivity|]. cbn.
  split; [reflexivity|]. split; [eauto|discriminate].
Qed.

(* False of the code in general: A has f(B&) and f(A&), B derives from A.  Asking
   for B first loads both (f is checked while B has no parent yet) and leaves an
   interchangeable pair; asking for A first is a registration error. *)
Definition ab_prog : program := Program
  [ Decl (lit "void") []; Decl (lit "reflect::Value") [];
    Decl (lit "A") [ LReg (RFn (lit "f") (Arg 0 Copy false) [Arg 2 LValue false; Arg 3 LValue false] 1);
                     LReg (RFn (lit "f") (Arg 0 Copy false) [Arg 2 LValue false; Arg 2 LValue false] 2) ];
    Decl (lit "B") [ LParent 2 ] ] 0 1.
Theorem c70_order_decides_refuted : exists P ts ts' st, sane P /\ Permutation ts ts' /\
  run_loads P ts = Ok st /\ run_loads P ts' = Abort /\
  exists T t n f g, tget (l_heap st) T = Some t /\ afind n (t_fns t) = Some [f; g] /\ test_fn (l_heap st) g f = Ok MExact.
Proof.
  exists ab_prog, [3; 2], [2; 3]. eexists. split; [|split; [apply perm_swap|split; [reflexivity|split; [reflexivity|]]]].
  - assert (B : forall T, body_of ab_prog T = [] \/ T = 2 \/ T = 3).
    { intro T. do 4 (destruct T as [|T]; auto). left. unfold body_of. cbn. now destruct T. }
    constructor; try (cbn; lia).
    + exists (fun T => T). intros a p X. destruct (B a) as [E|[->| ->]]; [rewrite E in X; destruct X as [[]|(k & [])]| |].
      * destruct X as [X|(k & X)]; cbn in X; intuition discriminate.
      * destruct X as [X|(k & X)]; cbn in X; [destruct X as [X|[]]; injection X as <-; lia|intuition discriminate].
    + intros T U (r & I & J). apply mentions_asks in J. destruct (B T) as [E|[->| ->]]; [rewrite E in I; destruct I| |]; cbn -[lit] in I;
        repeat (destruct I as [<-|I]; [cbn in J; cbn; repeat (destruct J as [<-|J]; [lia|]); contradiction|]); contradiction.
    + intros T I. destruct (B T) as [E|[->| ->]]; [rewrite E in I; destruct I| |]; cbn -[lit] in I; intuition discriminate.
  - exists 2. eexists. exists (lit "f"). do 2 eexists. split; [reflexivity|]. split; [reflexivity|]. reflexivity.
Qed.
Print Assumptions c70_order_decides_refuted.
