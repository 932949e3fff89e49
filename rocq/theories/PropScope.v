(* PropScope.v - C23-C28: qualified names and scopes *)
From Coq Require String.
Import String.StringSyntax.
From Verif Require Import Base ModelCore ExCore ProofCore2 ModelScope SpecScope ProofScope1 ProofScope2 ProofScope3 ProofScope4.

(* concrete components used by the examples *)
Lemma comp_check c : c <> [] -> level c = 0%Z -> (forall p q, c = p ++ 58%N :: q -> level p <> 0%Z) -> component c.
Proof. intros N L H. split; auto. split; auto. intros (p & q & E & L0). exact (H p q E L0). Qed.

Lemma nocolon_component c : c <> [] -> level c = 0%Z -> ~ In 58%N c -> component c.
Proof.
  intros N L H. apply comp_check; auto. intros p q -> . exfalso. apply H. apply in_app_iff. right. now left.
Qed.
Definition nA : str := lit "A".
Definition nB : str := lit "B".
Definition nC : str := lit "C".
Lemma compA : component nA. Proof. apply nocolon_component; [discriminate|reflexivity|]. cbn. intuition discriminate. Qed.
Lemma compB : component nB. Proof. apply nocolon_component; [discriminate|reflexivity|]. cbn. intuition discriminate. Qed.
Lemma compC : component nC. Proof. apply nocolon_component; [discriminate|reflexivity|]. cbn. intuition discriminate. Qed.

(* ===== C23 ===== *)
Theorem c23_head_then_join : forall name h t, head name = Ok (h, t) -> h <> [] ->
  (t <> [] -> join h t = name) /\ (t = [] -> name = h \/ name = h ++ sep).
Proof.
  intros name h t E N. split.
  - intro Ht. now apply head_join.
  - intros ->. apply head_iff in E. destruct E as (_ & _ & [->|(-> & _)]); auto.
Qed.
Print Assumptions c23_head_then_join.

Theorem c23_tail_then_join : forall name h t, tail name = Ok (t, h) ->
  (h <> [] -> join h t = name) /\ (h = [] -> name = t \/ name = sep ++ t).
Proof.
  intros name h t E. split.
  - intro Ht. now apply tail_join.
  - intros ->. apply tail_iff in E. destruct E as (_ & _ & [->|(-> & _)]); auto.
Qed.
Print Assumptions c23_tail_then_join.

Theorem c23_join_then_head : forall c cs, Forall component (c :: cs) -> cs <> [] ->
  head (join c (qname cs)) = Ok (c, qname cs).
Proof. exact join_head. Qed.
Print Assumptions c23_join_then_head.

Theorem c23_join_then_tail : forall cs c, Forall component (cs ++ [c]) -> cs <> [] ->
  tail (join (qname cs) c) = Ok (c, qname cs).
Proof. exact join_tail. Qed.
Print Assumptions c23_join_then_tail.

(* a template instance is one component whatever is between its brackets; 58 is ':',
   60 is '<' and 62 is '>' *)
Lemma level_ge_prefix b : (forall p q, b = p ++ q -> (0 <= level p)%Z) -> level b = 0%Z ->
  forall n, n <> [] -> (forall x, In x n -> x <> 58%N /\ x <> 60%N /\ x <> 62%N) ->
  component (n ++ 60%N :: b ++ [62%N]).
Proof.
  intros Hp Hb n Nn Hn.
  assert (Ln : forall m, (forall x, In x m -> x <> 58%N /\ x <> 60%N /\ x <> 62%N) -> level m = 0%Z).
  { induction m as [|x m IH]; intro Hm; auto. cbn [level].
    destruct (Hm x (or_introl eq_refl)) as (_ & H1 & H2).
    apply N.eqb_neq in H1, H2. rewrite H1, H2, IH; auto. intros y Hy. apply Hm. now right. }
  apply comp_check.
  - destruct n; [congruence|discriminate].
  - rewrite level_app, (Ln n Hn). change (60%N :: b ++ [62%N]) with ([60%N] ++ b ++ [62%N]).
    rewrite !level_app, Hb. reflexivity.
  - intros p q E. clear Nn. revert p E. induction n as [|x n IH]; intros p E.
    + cbn [app] in E. destruct p as [|y p]; [discriminate|]. cbn [app] in E. injection E as <- E. cbn [level].
      change (N.eqb 60%N 60%N) with true. cbn iota.
      assert (Hq : exists q', b = p ++ q').
      { clear -E. revert p E. induction b as [|z b IH]; intros p E.
        - cbn in E. destruct p as [|y p]; [discriminate|]. cbn in E. injection E as _ E. destruct p; discriminate.
        - destruct p as [|y p]; [exists (z :: b); auto|]. cbn in E. injection E as -> E. destruct (IH _ E) as (q' & ->).
          exists q'. auto. }
      destruct Hq as (q' & Hq). specialize (Hp p q' Hq). lia.
    + destruct p as [|y p].
      * cbn in E. injection E as -> _. exfalso. apply (proj1 (Hn 58%N (or_introl eq_refl))). reflexivity.
      * cbn in E. injection E as <- E. destruct (Hn x (or_introl eq_refl)) as (_ & H1 & H2). cbn [level].
        apply N.eqb_neq in H1, H2. rewrite H1, H2. rewrite Z.add_0_l. apply IH; auto. intros y Hy. apply Hn. now right.
Qed.

Theorem c23_brackets_never_split : forall n b t,
  n <> [] -> (forall x, In x n -> x <> 58%N /\ x <> 60%N /\ x <> 62%N) ->
  (forall p q, b = p ++ q -> (0 <= level p)%Z) -> level b = 0%Z ->
  let name := n ++ 60%N :: b ++ [62%N] in
  head name = Ok (name, []) /\ head (name ++ sep ++ t) = Ok (name, t) /\ tail name = Ok (name, []).
Proof.
  intros n b t Nn Hn Hp Hb name. destruct (level_ge_prefix b Hp Hb n Nn Hn) as (C1 & C2 & C3). fold name in C1, C2, C3.
  split; [|split].
  - apply head_iff. cbn. auto.
  - apply head_iff. cbn. auto.
  - apply tail_iff. cbn. split; auto. split; auto. now rewrite <- toplevel_r_balanced.
Qed.
Print Assumptions c23_brackets_never_split.

Example c23_ex :
  head (lit "std::vector<std::string>::iterator") = Ok (lit "std", lit "vector<std::string>::iterator") /\
  head (lit "vector<std::string>::iterator") = Ok (lit "vector<std::string>", lit "iterator") /\
  tail (lit "std::vector<std::string>") = Ok (lit "vector<std::string>", lit "std") /\
  join (lit "std") (lit "string") = lit "std::string".
Proof. repeat split. Qed.

(* ===== C24 ===== *)
Theorem c24_head_exact : forall name r, head name = r <-> head_spec name r.
Proof. exact head_iff. Qed.
Print Assumptions c24_head_exact.

Theorem c24_tail_exact : forall name r, tail name = r <-> tail_spec name r.
Proof. exact tail_iff. Qed.
Print Assumptions c24_tail_exact.

Theorem c24_progress : forall name,
  (forall h t, head name = Ok (h, t) -> t <> [] -> length t < length name) /\
  (forall h t, tail name = Ok (t, h) -> h <> [] -> length h < length name).
Proof. intro name. split; intros h t E N; [eapply head_progress|eapply tail_progress]; eauto. Qed.
Print Assumptions c24_progress.

(* walking a name through the scopes ends for every byte string *)
Theorem c24_scope_terminates : forall S this name, wf_scopes S -> this < length S ->
  (exists S' p, scope S this name = Ok (S', p)) \/ scope S this name = Abort.
Proof.
  intros S this name W L. destruct (Splits_or_abort (Datatypes.S (length name)) name) as [(cs & Sp)|A]; [lia| |].
  - destruct (path_exists S W (Datatypes.S this) this) as (x0 & Hx); auto.
    destruct (scope_views name cs S this x0 Sp W Hx) as (S' & p & E & _). left. eauto.
  - right. apply A; auto.
Qed.
Print Assumptions c24_scope_terminates.

Example c24_ex : head (lit "a:b") = Abort /\ head (lit "a<b::c") = Abort /\ head (lit "a::b<") = Ok (lit "a", lit "b<")
  /\ tail (lit "a::b<") = Abort /\ tail (lit "a:b") = Abort.
Proof. repeat split. Qed.

(* ===== C25 ===== *)
(* hasType after any history of well formed registrations.  A query whose inner
   component names a registered type is fatal; any other query answers exactly
   what was registered. *)
Theorem c25_hasType_is_registered : forall ops S x c,
  Forall wop_ok ops -> scope_run sinit (map wop_op ops) = Ok S -> Forall component (x ++ [c]) ->
  (forall c1 d c2, x = c1 ++ d :: c2 -> ~ reg_type ops c1 d) ->
  (reg_type ops x c /\ hasType S 0 (qname (x ++ [c])) = Ok true) \/
  (~ reg_type ops x c /\ hasType S 0 (qname (x ++ [c])) = Ok false).
Proof.
  intros ops S x c F E Fc NT. pose proof (agrees_run _ _ F E) as A.
  assert (N : x ++ [c] <> []) by (destruct x; discriminate).
  destruct (hasType_views S (ag_wf _ _ A) _ _ _ (Splits_qname _ N Fc) 0 [] eq_refl (Datatypes.S (length (qname (x ++ [c])))))
    as [(T & _)|[(_ & T & Q)|(_ & T & Q)]]; [lia| | |].
  - exfalso. destruct T as (c1 & d & c2 & -> & T). apply (ag_type _ _ A) in T. exact (NT _ _ _ eq_refl T).
  - left. split; auto. now apply (ag_type _ _ A).
  - right. split; auto. intro R. apply T. now apply (ag_type _ _ A).
Qed.
Print Assumptions c25_hasType_is_registered.

Theorem c25_inner_type_is_fatal : forall ops S x c,
  Forall wop_ok ops -> scope_run sinit (map wop_op ops) = Ok S -> Forall component (x ++ [c]) ->
  (exists c1 d c2, x = c1 ++ d :: c2 /\ reg_type ops c1 d) ->
  hasType S 0 (qname (x ++ [c])) = Abort.
Proof.
  intros ops S x c F E Fc (c1 & d & c2 & Ex & R). pose proof (agrees_run _ _ F E) as A.
  assert (N : x ++ [c] <> []) by (destruct x; discriminate).
  assert (TT : through_type S [] x) by (exists c1, d, c2; split; auto; now apply (ag_type _ _ A)).
  destruct (hasType_views S (ag_wf _ _ A) _ _ _ (Splits_qname _ N Fc) 0 [] eq_refl (Datatypes.S (length (qname (x ++ [c])))))
    as [(_ & Q)|[(T & _)|(T & _)]]; [lia|exact Q|contradiction|contradiction].
Qed.
Print Assumptions c25_inner_type_is_fatal.

(* type(): the same three cases.  Through a registered type it never returns; an
   unregistered name is fatal; a registered one gives the type that the first
   successful lookup of that name got from the registry, asked for exactly that
   qualified name, and asks the registry only when no lookup has succeeded yet. *)
Theorem c25_type_lookup : forall ops S x c load,
  Forall wop_ok ops -> scope_run sinit (map wop_op ops) = Ok S -> Forall component (x ++ [c]) ->
  ((exists c1 d c2, x = c1 ++ d :: c2 /\ reg_type ops c1 d) -> forall r, stype load S 0 (qname (x ++ [c])) <> Ok r) /\
  ((forall c1 d c2, x = c1 ++ d :: c2 -> ~ reg_type ops c1 d) ->
   (~ reg_type ops x c -> stype load S 0 (qname (x ++ [c])) = Abort) /\
   (reg_type ops x c ->
     match first_lookup ops x c with
     | Some ty => stype load S 0 (qname (x ++ [c])) = Ok (S, ty)
     | None =>
         match load (qname (x ++ [c])) with
         | Ok ty => exists S', stype load S 0 (qname (x ++ [c])) = Ok (S', ty)
         | _ => forall r, stype load S 0 (qname (x ++ [c])) <> Ok r
         end
     end)).
Proof.
  intros ops S x c load F E Fc. pose proof (agrees_run _ _ F E) as A.
  assert (N : x ++ [c] <> []) by (destruct x; discriminate). split.
  { intros (c1 & d & c2 & Ex & R). apply (stype_through load S (ag_wf _ _ A) _ _ _ (Splits_qname _ N Fc) 0 [] eq_refl _ (Nat.lt_succ_diag_r _)).
    exists c1, d, c2. split; auto. now apply (ag_type _ _ A). }
  intro NT.
  assert (TT : ~ through_type S [] x).
  { intros (c1 & d & c2 & -> & T). apply (ag_type _ _ A) in T. exact (NT _ _ _ eq_refl T). }
  destruct (stype_views load S (ag_wf _ _ A) _ _ _ (Splits_qname _ N Fc) 0 [] eq_refl (Datatypes.S (length (qname (x ++ [c])))))
    as (P & Q); auto.
  split.
  - intro R. apply P. intro T. apply R. now apply (ag_type _ _ A).
  - intro R. destruct Q as (p & s & Ew & Es & cached & Ec & H); [now apply (ag_type _ _ A)|]. cbn [app] in Ew, H. unfold stype.
    destruct cached as [ty|].
    + assert (V : vcached S x c ty) by (exists p; split; auto; exists s; auto). apply (ag_cache _ _ A) in V. now rewrite V.
    + destruct (first_lookup ops x c) as [ty|] eqn:Ef.
      { exfalso. apply (ag_cache _ _ A) in Ef as (p' & Hp & s0 & Es0 & Ec0). congruence. }
      rewrite H. destruct (load (qname (x ++ [c]))) as [ty| | | |]; cbn [bind]; eauto; intros; discriminate.
Qed.
Print Assumptions c25_type_lookup.

(* hence two lookups of one name in any history give the same type, whatever the
   registry would answer the second time *)
Theorem c25_lookups_agree : forall ops1 ops2 S1 S1' S2 x c load1 load2 ty,
  Forall wop_ok ops1 -> scope_run sinit (map wop_op ops1) = Ok S1 -> Forall component (x ++ [c]) ->
  stype load1 S1 0 (qname (x ++ [c])) = Ok (S1', ty) ->
  Forall wop_ok ops2 -> scope_run S1' (map wop_op ops2) = Ok S2 ->
  (forall c1 d c2, x = c1 ++ d :: c2 -> ~ reg_type ops2 c1 d) ->
  stype load2 S2 0 (qname (x ++ [c])) = Ok (S2, ty).
Proof.
  intros ops1 ops2 S1 S1' S2 x c load1 load2 ty F1 E1 Fc H F2 E2 NT2.
  destruct (c25_type_lookup ops1 S1 x c load1 F1 E1 Fc) as (A1 & B1).
  assert (NT1 : forall c1 d c2, x = c1 ++ d :: c2 -> ~ reg_type ops1 c1 d).
  { intros c1 d c2 Ex R. exact (A1 (ex_intro _ c1 (ex_intro _ d (ex_intro _ c2 (conj Ex R)))) _ H). }
  destruct (B1 NT1) as (C1 & D1).
  pose proof (agrees_run _ _ F1 E1) as G1.
  assert (R1 : reg_type ops1 x c).
  { destruct (vtype_dec S1 x c) as [V|V]; [now apply (ag_type _ _ G1)|]. exfalso.
    rewrite C1 in H; [discriminate|]. intro R. apply V. now apply (ag_type _ _ G1). }
  specialize (D1 R1).
  set (ops := ops1 ++ WLookup load1 x c :: ops2).
  assert (FF : Forall wop_ok ops) by (apply Forall_app; split; auto; constructor; auto).
  assert (EE : scope_run sinit (map wop_op ops) = Ok S2).
  { unfold ops. rewrite map_app, scope_run_app, E1. cbn [bind map scope_run wop_op scope_step]. rewrite H. cbn [bind]. exact E2. }
  destruct (c25_type_lookup ops S2 x c load2 FF EE Fc) as (_ & B2).
  assert (NT : forall c1 d c2, x = c1 ++ d :: c2 -> ~ reg_type ops c1 d).
  { intros c1 d c2 Ex R. unfold ops, reg_type in R. apply in_app_iff in R as [R|[R|R]];
      [exact (NT1 _ _ _ Ex R)|discriminate|exact (NT2 _ _ _ Ex R)]. }
  destruct (B2 NT) as (_ & D2).
  assert (R2 : reg_type ops x c) by (unfold ops, reg_type; apply in_app_iff; now left).
  specialize (D2 R2). unfold ops in D2. rewrite first_lookup_app in D2.
  destruct (first_lookup ops1 x c) as [t1|].
  - rewrite D1 in H. injection H as _ <-. exact D2.
  - cbn [first_lookup] in D2. destruct (list_eq_dec (list_eq_dec N.eq_dec) (x ++ [c]) (x ++ [c])) as [_|n]; [|congruence].
    destruct (load1 (qname (x ++ [c]))) as [t1| | | |]; try (exfalso; exact (D1 _ H)).
    destruct D1 as (S' & D1). rewrite D1 in H. injection H as _ <-. exact D2.
Qed.
Print Assumptions c25_lookups_agree.

(* registering on any scope of any tree: rejected exactly when an inner component
   is already a type or function there; otherwise it adds that one name, the
   scopes on the way, and nothing else *)
Theorem c25_addType_effect : forall S this x0 x c, wf_scopes S -> walk S 0 x0 = Some this -> Forall component (x ++ [c]) ->
  ((exists c1 d c2, x = c1 ++ d :: c2 /\ (vtype S (x0 ++ c1) d \/ exists os, vfn S (x0 ++ c1) d os))
     /\ addType S this (qname (x ++ [c])) = Abort) \/
  exists S', addType S this (qname (x ++ [c])) = Ok S' /\ wf_scopes S' /\
    (forall y, vscope S' y <-> vscope S y \/ exists z, prefix z x /\ y = x0 ++ z) /\
    (forall y d, vtype S' y d <-> vtype S y d \/ (y = x0 ++ x /\ d = c)) /\
    (forall y d os, vfn S' y d os <-> vfn S y d os).
Proof.
  intros S this x0 x c W Hx F.
  assert (N : x ++ [c] <> []) by (destruct x; discriminate).
  destruct (addType_views _ _ _ (Splits_qname _ N F) S this x0 W Hx (Datatypes.S (length (qname (x ++ [c])))))
    as [(B & A)|(_ & S' & A & W' & _ & V & T & Fn)]; [lia|left; auto|right]. exists S'. auto.
Qed.
Print Assumptions c25_addType_effect.

(* The unguarded claim is false: both names register, then asking for the longer
   one is fatal. *)
Theorem c25_refuted : exists ops S, Forall wop_ok ops /\ scope_run sinit (map wop_op ops) = Ok S /\
  reg_type ops [nA] nB /\ hasType S 0 (qname [nA; nB]) = Abort.
Proof.
  exists [WType [nA] nB; WType [] nA]. eexists. repeat split.
  - constructor; [|constructor; [|constructor]]; cbn [wop_ok app]; repeat (constructor; auto using compA, compB, compC).
  - now left.
Qed.
Print Assumptions c25_refuted.

Definition exOps : list wop :=
  [WType [nA] nB; WFunction exHeap [nA] nC w_byval; WScope [nC; nA]; WType [] nB; WFunction exHeap [nA] nC w_byconst; WType [nA; nA] nB;
   WLookup (fun _ => Ok 7) [nA] nB].
Lemma exOps_ok : Forall wop_ok exOps.
Proof.
  repeat (constructor; [cbn [wop_ok app]; repeat (constructor; auto using compA, compB, compC); try discriminate|]). constructor.
Qed.
Example c25_ex : exists S, scope_run sinit (map wop_op exOps) = Ok S /\
  hasType S 0 (lit "A::B") = Ok true /\ hasType S 0 (lit "A::C") = Ok false /\ hasType S 0 (lit "A::A::B") = Ok true /\
  stype (fun _ => Ok 9) S 0 (lit "A::B") = Ok (S, 7) /\ (exists S', stype (fun _ => Ok 9) S 0 (lit "A::A::B") = Ok (S', 9)) /\
  (forall c1 d c2, [nA; nA] = c1 ++ d :: c2 -> ~ reg_type exOps c1 d).
Proof.
  eexists. split; [reflexivity|]. split; [reflexivity|]. split; [reflexivity|]. split; [reflexivity|]. split; [reflexivity|]. split; [eexists; reflexivity|].
  intros c1 d c2 E [H|[H|[H|[H|[H|[H|[H|[]]]]]]]]; try discriminate; injection H as <- <-; cbn in E; discriminate.
Qed.

(* ===== C26 ===== *)
Theorem c26_recursive_listing : forall ops S, Forall wop_ok ops -> scope_run sinit (map wop_op ops) = Ok S ->
  exists l, types S 0 true = Ok l /\ NoDup l /\
    forall nm, In nm l <-> exists x c, reg_type ops x c /\ nm = qname (x ++ [c]).
Proof.
  intros ops S F E. pose proof (agrees_run _ _ F E) as A.
  destruct (types_listing S [] 0 (ag_wf _ _ A) (agrees_comp _ _ F A) eq_refl) as (l & El & ND & Hl).
  exists l. split; auto. split; auto. intro nm. rewrite Hl. cbn [app]. split.
  - intros (x & c & T & _ & ->). exists x, c. split; auto. now apply (ag_type _ _ A).
  - intros (x & c & R & ->). exists x, c. split; [now apply (ag_type _ _ A)|]. split; auto. eapply reg_type_comp; eauto.
Qed.
Print Assumptions c26_recursive_listing.

(* ... from any scope: the names relative to it *)
Theorem c26_listing_below : forall ops S x0 p, Forall wop_ok ops -> scope_run sinit (map wop_op ops) = Ok S ->
  walk S 0 x0 = Some p ->
  (exists l, types S p true = Ok l /\ NoDup l /\
    forall nm, In nm l <-> exists x c, reg_type ops (x0 ++ x) c /\ nm = qname (x ++ [c])) /\
  (exists l, types S p false = Ok l /\ NoDup l /\ forall nm, In nm l <-> reg_type ops x0 nm).
Proof.
  intros ops S x0 p F E Hx. pose proof (agrees_run _ _ F E) as A. split.
  - destruct (types_listing S x0 p (ag_wf _ _ A) (agrees_comp _ _ F A) Hx) as (l & El & ND & Hl).
    exists l. split; auto. split; auto. intro nm. rewrite Hl. split.
    + intros (x & c & T & _ & ->). exists x, c. split; auto. now apply (ag_type _ _ A).
    + intros (x & c & R & ->). exists x, c. split; [now apply (ag_type _ _ A)|]. split; auto.
      apply (reg_type_comp _ _ _ F) in R. rewrite <- app_assoc in R. now apply Forall_app in R as (_ & R).
  - destruct (lt_sget S p (walk_lt _ _ _ (ag_wf _ _ A) Hx)) as (s & Es).
    exists (map fst (s_types s)). unfold types. cbn [types_f]. rewrite Es. split; auto.
    split; [apply (ws_keys S (ag_wf _ _ A) _ _ Es)|]. intro nm. rewrite <- (vtype_at _ _ _ _ _ Hx Es). apply (ag_type _ _ A).
Qed.
Print Assumptions c26_listing_below.

Theorem c26_function_listing : forall ops S, Forall wop_ok ops -> scope_run sinit (map wop_op ops) = Ok S ->
  exists l, sfunctions S 0 true = Ok l /\ NoDup l /\
    forall nm, In nm l <-> exists H x c f, In (WFunction H x c f) ops /\ nm = qname (x ++ [c]).
Proof.
  intros ops S F E. pose proof (agrees_run _ _ F E) as A.
  destruct (functions_listing S [] 0 (ag_wf _ _ A) (agrees_comp _ _ F A) eq_refl) as (l & El & ND & Hl).
  assert (R : forall x c, reg_fns ops x c <> [] <-> exists H f, In (WFunction H x c f) ops).
  { intros x c. clear. induction ops as [|o ops IH]; cbn [reg_fns]; [split; [congruence|intros (? & ? & [])]|].
    destruct o as [cs|cs d|H cs d f|ld cs d].
    - rewrite IH. split; intros (H & f & Hin); exists H, f; cbn; auto. destruct Hin; [discriminate|auto].
    - rewrite IH. split; intros (H & f & Hin); exists H, f; cbn; auto. destruct Hin; [discriminate|auto].
    - destruct (list_eq_dec _ _ _) as [Eq|Nq].
      + apply app_snoc_inj in Eq as (-> & ->). split; [|discriminate]. intros _. exists H, f. now left.
      + rewrite IH. split; intros (H' & f' & Hin); exists H', f'; cbn; auto. destruct Hin as [Hin|]; auto.
        injection Hin as -> -> -> ->. congruence.
    - rewrite IH. split; intros (H & f & Hin); exists H, f; cbn; auto. destruct Hin; [discriminate|auto]. }
  exists l. split; auto. split; auto. intro nm. rewrite Hl. cbn [app]. split.
  - intros (x & c & os & T & _ & ->). apply (ag_fn _ _ A) in T as (N & ->). apply R in N as (H & f & Hin).
    exists H, x, c, f. auto.
  - intros (H & x & c & f & Hin & ->). assert (N : reg_fns ops x c <> []) by (apply R; eauto).
    exists x, c, (reg_fns ops x c). split; [apply (ag_fn _ _ A); auto|]. split; auto. eapply reg_fns_comp; eauto.
Qed.
Print Assumptions c26_function_listing.

Example c26_ex : exists S, scope_run sinit (map wop_op exOps) = Ok S /\
  types S 0 true = Ok [lit "B"; lit "A::B"; lit "A::A::B"] /\ types S 0 false = Ok [lit "B"] /\
  sfunctions S 0 true = Ok [lit "A::C"].
Proof. eexists. repeat split. Qed.

(* ===== C27 ===== *)
Theorem c27_function_lookup : forall ops S x c,
  Forall wop_ok ops -> scope_run sinit (map wop_op ops) = Ok S -> Forall component (x ++ [c]) ->
  (reg_fns ops x c <> [] /\ shasFunction S 0 (qname (x ++ [c])) = Ok true /\
     exists S', sfunction S 0 (qname (x ++ [c])) = Ok (S', reg_fns ops x c)) \/
  (reg_fns ops x c = [] /\ sfunction S 0 (qname (x ++ [c])) = Abort /\
     (reg_scope ops x -> shasFunction S 0 (qname (x ++ [c])) = Ok false) /\
     (~ reg_scope ops x -> shasFunction S 0 (qname (x ++ [c])) = Abort)).
Proof.
  intros ops S x c F E Fc. pose proof (agrees_run _ _ F E) as A.
  assert (N : qname (x ++ [c]) <> []) by (apply qname_nonempty; auto; destruct x; discriminate).
  assert (Ln : 1 < Datatypes.S (length (qname (x ++ [c])))) by (destruct (qname (x ++ [c])); [congruence|cbn; lia]).
  destruct (sfunction_views S _ x c 0 [] _ (FSplits_qname _ _ Fc) (ag_wf _ _ A) eq_refl Ln) as (P & Q). cbn [app] in P, Q.
  destruct (reg_fns ops x c) as [|g l] eqn:Eg.
  - right. split; auto. assert (NV : forall os, ~ vfn S x c os).
    { intros os V. apply (ag_fn _ _ A) in V as (V1 & V2). congruence. }
    split; [now apply Q|].
    destruct (shasFunction_views S _ x c 0 [] _ (FSplits_qname _ _ Fc) (ag_wf _ _ A) eq_refl Ln) as [(B & C)|[(_ & (os & B) & _)|(B & _ & C)]];
      cbn [app] in B.
    + split; [|auto]. intro R. exfalso. apply B. now apply (ag_scope _ _ A).
    + exfalso. exact (NV _ B).
    + split; [auto|]. intro R. exfalso. apply R. now apply (ag_scope _ _ A).
  - left. assert (V : vfn S x c (g :: l)) by (apply (ag_fn _ _ A); split; [discriminate|auto]).
    split; [discriminate|]. split.
    + destruct (shasFunction_views S _ x c 0 [] _ (FSplits_qname _ _ Fc) (ag_wf _ _ A) eq_refl Ln) as [(B & C)|[(_ & _ & C)|(_ & B & C)]];
      cbn [app] in *; auto.
      * exfalso. apply B. destruct V as (p & s & Ew & _). exists p. auto.
      * exfalso. exact (B _ V).
    + destruct (P _ V) as (S' & E' & _). exists S'. exact E'.
Qed.
Print Assumptions c27_function_lookup.

(* the effect of one addFunction on any scope of any tree *)
Theorem c27_addFunction_effect : forall H f S S' this x0 x c, wf_scopes S -> walk S 0 x0 = Some this ->
  Forall component (x ++ [c]) -> saddFunction H S this (qname (x ++ [c])) f = Ok S' ->
  exists os0, (vfn S (x0 ++ x) c os0 \/ (os0 = [] /\ forall os, ~ vfn S (x0 ++ x) c os)) /\
    vfn S' (x0 ++ x) c (os0 ++ [f]) /\
    (forall y d os, (y <> x0 ++ x \/ d <> c) -> (vfn S' y d os <-> vfn S y d os)) /\
    (forall y d, vtype S' y d <-> vtype S y d).
Proof.
  intros H f S S' this x0 x c W Hx Fc E.
  assert (N : qname (x ++ [c]) <> []) by (apply qname_nonempty; auto; destruct x; discriminate).
  assert (Ln : 1 < Datatypes.S (length (qname (x ++ [c])))) by (destruct (qname (x ++ [c])); [congruence|cbn; lia]).
  destruct (saddFunction_views H f _ x c S this x0 _ (FSplits_qname _ _ Fc) W Hx Ln) as (os0 & A0 & [(os1 & S2 & Eo & A & _ & _ & V & T & Fn)|(_ & B)]).
  2: { exfalso. exact (B _ E). }
  unfold saddFunction in E. rewrite E in A. injection A as <-. apply ProofMatch.overloads_add_app in Eo. subst os1.
  exists os0. split; [exact A0|]. split; [apply Fn; auto|]. split; [|exact T].
  intros y d os D. rewrite Fn. intuition congruence.
Qed.
Print Assumptions c27_addFunction_effect.

(* hasFunction is fatal, not false, when the scope part does not exist *)
Example c27_missing_scope : exists S,
  scope_run sinit [OpAddFunction exHeap 0 (lit "A::f") w_byval] = Ok S /\
  shasFunction S 0 (lit "B::f") = Abort /\ shasFunction S 0 (lit "A::g") = Ok false.
Proof. eexists. repeat split. Qed.

Example c27_ex : exists S, scope_run sinit (map wop_op exOps) = Ok S /\ reg_fns exOps [nA] nC = [w_byval; w_byconst] /\
  exists S', sfunction S 0 (lit "A::C") = Ok (S', [w_byval; w_byconst]).
Proof. eexists. split; [reflexivity|]. split; [reflexivity|]. eexists. reflexivity. Qed.

(* ===== C28 ===== *)
(* in any tree reached by any history of operations with any names *)
Theorem c28_scope_id : forall ops S cs S' p, scope_run sinit ops = Ok S -> cs <> [] -> Forall component cs ->
  scope S 0 (qname cs) = Ok (S', p) -> scope_id S' p = Ok (qname cs) /\ hasScope S' 0 (qname cs) = Ok true.
Proof.
  intros ops S cs S' p E N F Es. pose proof (scope_run_wf _ _ _ sinit_wf E) as W.
  destruct (scope_views _ cs S 0 [] (Splits_qname _ N F) W eq_refl) as (S1 & p1 & E1 & W1 & R1 & _).
  rewrite E1 in Es. injection Es as <- <-. cbn [app] in R1. split.
  - apply (scope_id_path S1 W1 cs p1 F R1). pose proof (walk_lt _ _ _ W1 R1). lia.
  - unfold hasScope. rewrite (hasScope_walk S1 W1 _ _ (Splits_qname _ N F)), R1; auto.
    eapply (walk_lt S1 []); auto.
Qed.
Print Assumptions c28_scope_id.

(* requesting a scope always succeeds, and again later gives the same object *)
Theorem c28_same_scope : forall ops S cs, scope_run sinit ops = Ok S -> cs <> [] -> Forall component cs ->
  exists S1 p, scope S 0 (qname cs) = Ok (S1, p) /\
    forall ops2 S2, scope_run S1 ops2 = Ok S2 -> exists S3, scope S2 0 (qname cs) = Ok (S3, p).
Proof.
  intros ops S cs E N F. pose proof (scope_run_wf _ _ _ sinit_wf E) as W.
  destruct (scope_views _ cs S 0 [] (Splits_qname _ N F) W eq_refl) as (S1 & p1 & E1 & W1 & R1 & _).
  exists S1, p1. split; auto. intros ops2 S2 E2.
  pose proof (scope_run_wf _ _ _ W1 E2) as W2. pose proof (scope_run_mono _ _ _ W1 E2 _ _ R1) as R2.
  destruct (scope_views _ cs S2 0 [] (Splits_qname _ N F) W2 eq_refl) as (S3 & p3 & E3 & W3 & R3 & M3 & _).
  exists S3. rewrite E3. apply M3 in R2. cbn [app] in *. congruence.
Qed.
Print Assumptions c28_same_scope.

(* hasScope tells exactly which scopes were created, by a request or as part of a
   registered name *)
Theorem c28_hasScope_exact : forall ops S cs, Forall wop_ok ops -> scope_run sinit (map wop_op ops) = Ok S ->
  cs <> [] -> Forall component cs ->
  (reg_scope ops cs /\ hasScope S 0 (qname cs) = Ok true) \/ (~ reg_scope ops cs /\ hasScope S 0 (qname cs) = Ok false).
Proof.
  intros ops S cs F E N Fc. pose proof (agrees_run _ _ F E) as A. unfold hasScope.
  rewrite (hasScope_walk S (ag_wf _ _ A) _ _ (Splits_qname _ N Fc)); [|apply (walk_lt S []); [apply (ag_wf _ _ A)|reflexivity]|lia].
  destruct (walk S 0 cs) as [p|] eqn:Ew; [left|right]; split; auto.
  - apply (ag_scope _ _ A). exists p. auto.
  - intro R. apply (ag_scope _ _ A) in R as (p & Ep). congruence.
Qed.
Print Assumptions c28_hasScope_exact.

(* the scopes listed directly inside a scope: each one made there, once *)
Theorem c28_scopes_listing : forall ops S x p, Forall wop_ok ops -> scope_run sinit (map wop_op ops) = Ok S ->
  walk S 0 x = Some p ->
  exists l, scopes_ S p = Ok l /\ NoDup l /\ forall nm, In nm l <-> reg_scope ops (x ++ [nm]).
Proof.
  intros ops S x p F E Hx. pose proof (agrees_run _ _ F E) as A. pose proof (ag_wf _ _ A) as W.
  destruct (lt_sget S p (walk_lt S x p W Hx)) as (s & Es). exists (akeys (s_scopes s)). unfold scopes_. rewrite Es.
  split; [reflexivity|]. split; [apply (ws_keys S W p s Es)|]. intro nm. rewrite <- (ag_scope _ _ A). unfold vscope.
  rewrite walk_app, Hx. cbn [walk]. rewrite Es. destruct (afind nm (s_scopes s)) as [q|] eqn:Ef.
  - split; [eauto|]. intros _. exact (afind_Some_key _ _ _ Ef).
  - apply afind_None in Ef. split; [contradiction|]. intros (q & X). discriminate.
Qed.
Print Assumptions c28_scopes_listing.

(* two different names never share a scope *)
Theorem c28_distinct_names : forall ops S cs ds p, scope_run sinit ops = Ok S ->
  cs <> [] -> ds <> [] -> Forall component cs -> Forall component ds ->
  scope_c S 0 (qname cs) = Ok p -> scope_c S 0 (qname ds) = Ok p -> cs = ds.
Proof.
  intros ops S cs ds p E Nc Nd Fc Fd E1 E2. pose proof (scope_run_wf _ _ _ sinit_wf E) as W.
  assert (L : 0 < length S) by (apply (walk_lt S [] 0 W); reflexivity).
  unfold scope_c in *.
  rewrite (scope_c_walk S W _ _ (Splits_qname _ Nc Fc) 0 L) in E1 by lia.
  rewrite (scope_c_walk S W _ _ (Splits_qname _ Nd Fd) 0 L) in E2 by lia.
  destruct (walk S 0 cs) as [q|] eqn:W1; [|discriminate]. injection E1 as ->.
  destruct (walk S 0 ds) as [q|] eqn:W2; [|discriminate]. injection E2 as ->.
  eapply path_unique; eauto.
Qed.
Print Assumptions c28_distinct_names.

Example c28_ex : exists S S' p, scope_run sinit (map wop_op exOps) = Ok S /\
  hasScope S 0 (lit "C::B") = Ok false /\ scope S 0 (lit "C::B") = Ok (S', p) /\ scope_id S' p = Ok (lit "C::B") /\
  hasScope S' 0 (lit "C::B") = Ok true.
Proof. do 3 eexists. repeat split. Qed.
