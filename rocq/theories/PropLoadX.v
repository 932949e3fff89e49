(* PropLoadX.v - property C85: errors while a type is loading, when errors are
   exceptions the program catches. *)
From Coq Require String.
Import String.StringSyntax.
From Coq Require Import Relations.
From Verif Require Import Base ModelCore SpecCore ProofCore ProofMatch ProofCore2 ModelPlumb SpecPlumb ProofPlumb
  ModelLoad SpecLoad ProofLoad ProofLoad2 ModelLoadX ProofLoadX ProofLoadX2.

Lemma begun_holds P H U d : begun P H U -> nth_error (p_decls P) U = Some d ->
  exists pre post t, d_body d = pre ++ post /\ tget H U = Some t /\ holds (Decl (d_id d) pre) t.
Proof.
  intros (d' & pre & post & E1 & E2 & E3 & E4) Ed. rewrite Ed in E1. injection E1 as <-.
  exists pre, post, (lbuilt (d_id d) pre). split; [exact E2|]. split; [exact E3|]. now apply lbuilt_holds.
Qed.

(* Whatever raised on the way: each type object holds exactly the first lines of
   its class's reflection; one no request needs holds nothing. *)
Theorem c85_what_is_there : forall P ts st log, attempts P ts = (st, log) ->
  forall T d, nth_error (p_decls P) T = Some d ->
  exists pre post t, d_body d = pre ++ post /\ tget (l_heap st) T = Some t /\ holds (Decl (d_id d) pre) t /\
    (~ (exists s, In s ts /\ needs P s T) -> t = newType (d_id d)).
Proof.
  intros P ts st log E T d Ed. pose proof (invx_attempts P _ _ _ E) as Iv. pose proof (attempts_log P _ _ _ E) as El.
  destruct (in_dec_n T (l_started st)) as [I|I].
  - destruct (begun_holds P _ _ _ (ix_begun _ _ _ Iv T I) Ed) as (pre & post & t & E1 & E2 & E3).
    exists pre, post, t. split; [exact E1|]. split; [exact E2|]. split; [exact E3|]. intro N. exfalso. apply N.
    destruct (ix_why _ _ _ Iv T I) as (s & e & Is & Ns & _). exists s. split; [|exact Ns]. rewrite <- El. apply (in_map fst _ (s, e) Is).
  - exists [], (d_body d), (newType (d_id d)). split; [reflexivity|]. split; [apply (ix_blank _ _ _ Iv T d Ed I)|]. split; [|auto].
    apply (lbuilt_holds (d_id d) []). intros n a off [].
Qed.
Print Assumptions c85_what_is_there.

(* A request that raised leaves its type in the registry, with the lines before the
   failing one only. *)
Theorem c85_raised_stays : forall P ts st log t d, attempts P ts = (st, log) -> In (t, Raised) log ->
  nth_error (p_decls P) t = Some d ->
  exists pre r post o, d_body d = pre ++ r :: post /\ tget (l_heap st) t = Some o /\ holds (Decl (d_id d) pre) o.
Proof.
  intros P ts st log t d E I Ed. pose proof (invx_attempts P _ _ _ E) as Iv.
  destruct (ix_half _ _ _ Iv t Raised I) as (d' & pre & r & post & E1 & E2 & E3 & E4); [discriminate|apply nth_error_Some; congruence|].
  rewrite Ed in E1. injection E1 as <-. exists pre, r, post, (lbuilt (d_id d) pre).
  split; [exact E2|]. split; [exact E3|]. now apply lbuilt_holds.
Qed.
Print Assumptions c85_raised_stays.

(* It is given back as it is, without an error, however often it is asked for, and
   nothing runs: the error is reported once. *)
Theorem c85_reported_once : forall P ts st log t, attempts P ts = (st, log) -> In t ts -> t < length (p_decls P) ->
  forall n, attempts P (ts ++ repeat t n) = (st, log ++ repeat (t, Fine) n).
Proof.
  intros P ts st log t E I L n. unfold attempts in *. rewrite attempts_app, E. pose proof (invx_attempts P _ _ _ E) as Iv.
  assert (It : In t (l_started st)).
  { rewrite <- (attempts_log P _ _ _ E) in I. apply in_map_iff in I as ([s e] & <- & I). apply (ix_asked _ _ _ Iv s e I). auto. }
  assert (X : attempts_from P st (repeat t n) = (st, repeat (t, Fine) n)); [|now rewrite X].
  induction n as [|n IH]; cbn [repeat attempts_from]; [reflexivity|].
  destruct (load_x P st t) as [st1 e] eqn:E1.
  destruct (load_x_spec P _ _ _ _ E1 (ix_blank _ _ _ Iv) (ix_shaped _ _ _ Iv)) as (_ & _ & K & _).
  destruct (K It) as [-> ->]. now rewrite IH.
Qed.
Print Assumptions c85_reported_once.

(* No later request changes a type that was asked for. *)
Theorem c85_never_completed : forall P ts us st log st' log' t, attempts P ts = (st, log) -> attempts P (ts ++ us) = (st', log') ->
  In t ts -> tget (l_heap st') t = tget (l_heap st) t.
Proof.
  intros P ts us st log st' log' t E E' I. pose proof (invx_attempts P _ _ _ E) as Iv. pose proof (invx_attempts P _ _ _ E') as Iv'.
  destruct (Nat.lt_ge_cases t (length (p_decls P))) as [L|L].
  - apply (attempts_same P ts us st log st' log' E E').
    rewrite <- (attempts_log P _ _ _ E) in I. apply in_map_iff in I as ([s e] & <- & I). apply (ix_asked _ _ _ Iv s e I). auto.
  - destruct (ix_shaped _ _ _ Iv) as (X & _), (ix_shaped _ _ _ Iv') as (X' & _). unfold tget.
    rewrite (proj2 (nth_error_None (h_types (l_heap st')) t)), (proj2 (nth_error_None (h_types (l_heap st)) t)); auto; lia.
Qed.
Print Assumptions c85_never_completed.

(* A type is there in full if its request ended well and shares no needed type with
   one that did not. *)
Theorem c85_loaded_in_full : forall P ts st log t, attempts P ts = (st, log) -> In (t, Fine) log ->
  (forall s e, In (s, e) log -> e <> Fine -> forall U, needs P t U -> ~ needs P s U) ->
  forall U, needs P t U -> exists d o, nth_error (p_decls P) U = Some d /\ tget (l_heap st) U = Some o /\ holds d o.
Proof.
  intros P ts st log t E I C U N. destruct (in_full P ts st log t E I) with (U := U) as (d & E1 & E2 & E3 & _); auto.
  - intros s e V Is Ne NV. eapply C; eauto.
  - eauto.
Qed.
Print Assumptions c85_loaded_in_full.

(* An id nobody registered raises each time and changes nothing. *)
Theorem c85_unknown_raises : forall P ts st log t, attempts P ts = (st, log) -> length (p_decls P) <= t ->
  attempts P (ts ++ [t]) = (st, log ++ [(t, Raised)]).
Proof.
  intros P ts st log t E L. unfold attempts in *. rewrite attempts_app, E. pose proof (invx_attempts P _ _ _ E) as Iv.
  assert (Et : nth_error (p_decls P) t = None) by now apply nth_error_None.
  assert (X : load_x P st t = (st, Raised)); [|cbn [attempts_from]; now rewrite X].
  unfold load_x. cbn [load_xf]. destruct (existsb (Nat.eqb t) (l_started st)) eqn:Ex.
  - apply mem_iff in Ex. destruct (ix_begun _ _ _ Iv t Ex) as (d & ? & ? & Ed & _). congruence.
  - now rewrite Et.
Qed.
Print Assumptions c85_unknown_raises.

(* Every request ends, with the type or with an exception. *)
Theorem c85_always_ends : forall P ts st log, sane P -> attempts P ts = (st, log) ->
  map fst log = ts /\ forall t e, In (t, e) log -> e = Fine \/ e = Raised.
Proof.
  intros P ts st log S0 E. split; [now apply (attempts_log P ts st)|]. intros t e I.
  pose proof (attempts_end P S0 ts (linit P) st log (linit_blank P) (linit_stage P) E t e I) as N. destruct e; auto. now contradiction N.
Qed.
Print Assumptions c85_always_ends.

(* Without exceptions raised it is the library that aborts on errors, C70; one is
   raised exactly when that library aborts. *)
Theorem c85_same_without_errors : forall P ts st, 
  run_loads P ts = Ok st <-> exists log, attempts P ts = (st, log) /\ forall t e, In (t, e) log -> e = Fine.
Proof.
  intros P ts st. unfold run_loads, attempts. rewrite <- all_fine. split; intros (log & E & F); exists log; (split; [exact E|]).
  - intros t e I. rewrite Forall_forall in F. apply (F (t, e) I).
  - apply Forall_forall. intros [t e] I. apply (F t e I).
Qed.
Print Assumptions c85_same_without_errors.
Theorem c85_error_iff_abort : forall P ts st log, sane P -> (forall t, In t ts -> t < length (p_decls P)) -> attempts P ts = (st, log) ->
  run_loads P ts = Abort <-> exists t, In (t, Raised) log.
Proof.
  intros P ts st log S0 V E. pose proof (c85_same_without_errors P ts) as Q. destruct (c85_always_ends P ts st log S0 E) as [_ En].
  destruct (run_loads_fine P S0 false ts ltac:(discriminate) V) as [(s & Es)|(_ & Es)].
  - split; [congruence|]. intros (t & I). apply Q in Es as (l & El & F). rewrite E in El. injection El as -> ->. discriminate (F t Raised I).
  - split; [|auto]. intros _.
    assert (D : (exists t, In (t, Raised) log) \/ forall t e, In (t, e) log -> e = Fine).
    { clear -En. induction log as [|[t e] log IH]; [right; intros t e []|].
      destruct IH as [(u & I)|F]; [intros t0 e0 I; apply (En t0); now right|left; exists u; now right|].
      destruct (En t e (or_introl eq_refl)) as [->| ->]; [|left; exists t; now left]. right. intros t0 e0 [I|I]; [congruence|eauto]. }
    destruct D as [D|D]; [exact D|]. assert (X : run_loads P ts = Ok st) by (apply Q; eauto). congruence.
Qed.
Print Assumptions c85_error_iff_abort.

(* Point declares x twice; Line has two Points and is asked for afterwards. *)
Definition twice_prog : program := Program
  [ Decl (lit "void") []; Decl (lit "reflect::Value") []; Decl (lit "int") [];
    Decl (lit "Point") [ LField (lit "x") (Arg 2 Copy false) 0; LField (lit "x") (Arg 2 Copy false) 4; LField (lit "y") (Arg 2 Copy false) 8 ];
    Decl (lit "Line") [ LField (lit "from") (Arg 3 Copy false) 0; LField (lit "to") (Arg 3 Copy false) 8 ] ] 0 1.
Lemma twice_sane : sane twice_prog.
Proof.
  assert (B : forall T, body_of twice_prog T = [] \/ T = 3 \/ T = 4).
  { intro T. do 5 (destruct T as [|T]; auto). left. unfold body_of. cbn. now destruct T. }
  constructor; try (cbn; lia).
  - exists (fun T => T). intros a p X. destruct (B a) as [E|[->| ->]]; [rewrite E in X; destruct X as [[]|(k & [])]| |];
      destruct X as [X|(k & X)]; cbn in X; intuition discriminate.
  - intros T U (r & I & J). apply mentions_asks in J. destruct (B T) as [E|[->| ->]]; [rewrite E in I; destruct I| |]; cbn -[lit] in I;
      repeat (destruct I as [<-|I]; [cbn in J; cbn; repeat (destruct J as [<-|J]; [lia|]); contradiction|]); contradiction.
  - intros T I. destruct (B T) as [E|[->| ->]]; [rewrite E in I; destruct I| |]; cbn -[lit] in I; intuition discriminate.
Qed.
Example c85_twice_log : snd (attempts twice_prog [2; 4; 4; 3; 7]) = [(2, Fine); (4, Raised); (4, Fine); (3, Fine); (7, Raised)].
Proof. reflexivity. Qed.
Example c85_twice_alone : forall s e, In (s, e) [(2, Fine); (4, Raised)] -> e <> Fine -> forall U, needs twice_prog 1 U -> ~ needs twice_prog s U.
Proof.
  intros s e [X|[X|[]]]; injection X as <- <-; intro Ne; [now contradiction Ne|]. intros U N M.
  assert (U = 1) as ->.
  { inversion N as [|y z (r & I & _) _]; subst; [reflexivity|]. destruct I. }
  inversion M as [|y z (r & I & J) N2]; subst. apply mentions_asks in J. cbn -[lit] in I.
  assert (y = 3) as -> by (destruct I as [<-|[<-|[]]]; cbn in J; intuition congruence).
  inversion N2 as [|y z' (r' & I' & J') N3]; subst. apply mentions_asks in J'. cbn -[lit] in I'.
  assert (y = 2) as -> by (destruct I' as [<-|[<-|[<-|[]]]]; cbn in J'; intuition congruence).
  inversion N3 as [|y z2 (r2 & I2 & _) _]; subst. destruct I2.
Qed.

(* False of the code: that a request that ends well gives a type holding what its
   class declares.  Asked for again after the error, Line comes back without fields;
   Point, asked for the first time by the program itself, without y. *)
Theorem c85_given_half_loaded_refuted : exists P ts st log t d o, sane P /\ attempts P ts = (st, log) /\
  log = [(t, Raised); (t, Fine)] /\ nth_error (p_decls P) t = Some d /\ tget (l_heap st) t = Some o /\ ~ holds d o.
Proof.
  exists twice_prog, [4; 4]. do 5 eexists. split; [exact twice_sane|]. split; [vm_compute; reflexivity|].
  split; [reflexivity|]. split; [reflexivity|]. split; [reflexivity|]. intros [_ _ _ _ F _].
  specialize (F (lit "from") (Field (lit "from") (Arg 3 Copy false) 0%N [])).
  destruct F as [_ F]. cbn in F. assert (X : @None field = Some (Field (lit "from") (Arg 3 Copy false) 0%N [])); [|discriminate X].
  apply F. eexists _, _. split; [left; reflexivity|reflexivity].
Qed.
Print Assumptions c85_given_half_loaded_refuted.
Theorem c85_never_raised_refuted : exists P ts st log t d o, sane P /\ attempts P ts = (st, log) /\
  In (t, Fine) log /\ ~ In (t, Raised) log /\ nth_error (p_decls P) t = Some d /\ tget (l_heap st) t = Some o /\ ~ holds d o.
Proof.
  exists twice_prog, [4; 3]. do 2 eexists. exists 3. do 2 eexists. split; [exact twice_sane|]. split; [vm_compute; reflexivity|].
  split; [right; now left|]. split; [intros [X|[X|[]]]; discriminate|]. split; [reflexivity|]. split; [reflexivity|]. intros [_ _ _ _ F _].
  specialize (F (lit "y") (Field (lit "y") (Arg 2 Copy false) 8%N [])).
  destruct F as [_ F]. cbn in F. assert (X : @None field = Some (Field (lit "y") (Arg 2 Copy false) 8%N [])); [|discriminate X].
  apply F. eexists _, _. split; [right; right; left; reflexivity|reflexivity].
Qed.
Print Assumptions c85_never_raised_refuted.
