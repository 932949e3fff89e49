(* ProofInit.v - C80: registry states that differ only in how they are stored *)
From Coq Require String.
Import String.StringSyntax.
From Coq Require Import Permutation.
From Verif Require Import Base ModelCore ModelScope SpecScope ProofScope1 ProofScope2 ProofScope3 ProofScope4
  ModelRegistry SpecRegistry ProofRegistry1 ProofRegistry2 ModelInit SpecInit.
Local Open Scope outcome_scope.

(* ---- the scope trees ---- *)
Record sc_eq (S1 S2 : sheap) : Prop := {
  se_w1 : wf_scopes S1; se_w2 : wf_scopes S2;
  se_scope : forall x, vscope S1 x <-> vscope S2 x;
  se_type : forall x c, vtype S1 x c <-> vtype S2 x c;
  se_fn : forall x c os, vfn S1 x c os <-> vfn S2 x c os }.

Lemma blocked_eq S1 S2 cs : sc_eq S1 S2 -> blocked S1 [] cs -> blocked S2 [] cs.
Proof.
  intros E (c1 & d & c2 & Ec & [T|(os & F)]); exists c1, d, c2; split; auto.
  - left. now apply (se_type _ _ E).
  - right. exists os. now apply (se_fn _ _ E).
Qed.
Lemma sc_eq_sym S1 S2 : sc_eq S1 S2 -> sc_eq S2 S1.
Proof. intros [A B C D E]. constructor; auto; intros; symmetry; auto. Qed.

Lemma addType_eq S1 S2 name : sc_eq S1 S2 ->
  (exists S1' S2', addType S1 0 name = Ok S1' /\ addType S2 0 name = Ok S2' /\ sc_eq S1' S2') \/
  (addType S1 0 name = Abort /\ addType S2 0 name = Abort).
Proof.
  intro E. pose proof (se_w1 _ _ E) as W1. pose proof (se_w2 _ _ E) as W2.
  assert (Q : (exists cs, Splits name cs) \/ (addType S1 0 name = Abort /\ addType S2 0 name = Abort)).
  { destruct (addType_total S1 name W1) as [(S' & A)|A].
    - left. apply (addType_Splits _ _ _ _ _ W1 A).
    - destruct (addType_total S2 name W2) as [(S' & B)|B]; [left; apply (addType_Splits _ _ _ _ _ W2 B)|auto]. }
  destruct Q as [(cs & Sp)|Q]; auto.
  destruct (snoc_of cs (Splits_nonempty _ _ Sp)) as (cs' & c & ->).
  destruct (addType_views _ _ _ Sp S1 0 [] W1 eq_refl (Datatypes.S (length name))) as [(B1 & A1)|(B1 & S1' & A1 & W1' & _ & V1 & T1 & F1)]; [lia| |];
  (destruct (addType_views _ _ _ Sp S2 0 [] W2 eq_refl (Datatypes.S (length name))) as [(B2 & A2)|(B2 & S2' & A2 & W2' & _ & V2 & T2 & F2)]; [lia| |]).
  - auto.
  - exfalso. apply B2. eapply blocked_eq; eauto.
  - exfalso. apply B1. eapply blocked_eq; eauto using sc_eq_sym.
  - left. exists S1', S2'. split; auto. split; auto. constructor; auto.
    + intro x. rewrite V1, V2, (se_scope _ _ E). tauto.
    + intros x d. rewrite T1, T2, (se_type _ _ E). tauto.
    + intros x d os. rewrite F1, F2. apply (se_fn _ _ E).
Qed.

Lemma child_walk S x p s h : walk S 0 x = Some p -> sget S p = Some s ->
  walk S 0 (x ++ [h]) = afind h (s_scopes s).
Proof. intros W G. rewrite walk_app, W. cbn [walk]. rewrite G. now destruct (afind h (s_scopes s)). Qed.

Lemma hasType_f_eq S1 S2 : sc_eq S1 S2 -> forall n name x p1 p2, walk S1 0 x = Some p1 -> walk S2 0 x = Some p2 ->
  hasType_f n S1 p1 name = hasType_f n S2 p2 name.
Proof.
  intro E. induction n as [|n IH]; intros name x p1 p2 X1 X2; cbn [hasType_f]; auto.
  destruct (head name) as [(h, t)| | | |]; cbn [bind]; auto.
  destruct (lt_sget S1 p1 (walk_lt _ _ _ (se_w1 _ _ E) X1)) as (s1 & G1).
  destruct (lt_sget S2 p2 (walk_lt _ _ _ (se_w2 _ _ E) X2)) as (s2 & G2).
  rewrite G1, G2.
  pose proof (se_type _ _ E x h) as T. rewrite (vtype_at _ _ h _ _ X1 G1), (vtype_at _ _ h _ _ X2 G2) in T.
  fold (akeys (s_types s1)) (akeys (s_types s2)) in T.
  destruct (afind h (s_types s1)) as [v1|] eqn:E1, (afind h (s_types s2)) as [v2|] eqn:E2; auto.
  - apply afind_Some_key in E1. apply afind_None in E2. tauto.
  - apply afind_Some_key in E2. apply afind_None in E1. tauto.
  - destruct t as [|b t]; auto.
    pose proof (child_walk _ _ _ _ h X1 G1) as C1. pose proof (child_walk _ _ _ _ h X2 G2) as C2.
    pose proof (se_scope _ _ E (x ++ [h])) as SC. unfold vscope in SC.
    destruct (afind h (s_scopes s1)) as [q1|], (afind h (s_scopes s2)) as [q2|]; auto.
    + apply (IH _ (x ++ [h])); auto.
    + destruct SC as (SC & _). destruct SC as (q & Q); [eauto|]. congruence.
    + destruct SC as (_ & SC). destruct SC as (q & Q); [eauto|]. congruence.
Qed.

(* ---- registry states ---- *)
Record req (s1 s2 : rstate) : Prop := {
  q_i1 : Inv s1; q_i2 : Inv s2;
  q_types : r_types s1 = r_types s2;
  q_objs : r_objs s1 = r_objs s2;
  q_log : r_log s1 = r_log s2;
  q_flags : r_flags s1 = r_flags s2;
  q_alias : forall a, afind a (r_aliases s1) = afind a (r_aliases s2);
  q_load : forall i, afind i (r_loaders s1) = afind i (r_loaders s2);
  q_scopes : sc_eq (r_scopes s1) (r_scopes s2) }.

Lemma afind_snoc_eq {V} (m1 m2 : list (str * V)) k v : (forall a, afind a m1 = afind a m2) ->
  forall a, afind a (m1 ++ [(k, v)]) = afind a (m2 ++ [(k, v)]).
Proof.
  intros E a. assert (X : forall m : list (str * V), afind a (m ++ [(k, v)]) =
    match afind a m with Some w => Some w | None => if str_eqb a k then Some v else None end).
  { induction m as [|(k', w) m IH]; cbn; auto. destruct (str_eqb a k'); auto. }
  now rewrite !X, E.
Qed.
Lemma ahas_eq {V} (m1 m2 : list (str * V)) k : (forall a, afind a m1 = afind a m2) -> ahas k m1 = ahas k m2.
Proof. intro E. unfold ahas. now rewrite E. Qed.

Lemma radd_req s1 s2 id l : req s1 s2 ->
  req (fst (radd s1 id l)) (fst (radd s2 id l)) /\ snd (radd s1 id l) = snd (radd s2 id l).
Proof.
  intro Q. pose proof (pr_add _ _ Inv_pres s1 id l Logic.I (q_i1 _ _ Q)) as I1.
  pose proof (pr_add _ _ Inv_pres s2 id l Logic.I (q_i2 _ _ Q)) as I2.
  destruct Q as [J1 J2 A B C D F G SC]. unfold radd in *. destruct id as [|b id]; [split; auto; constructor; auto|].
  rewrite (ahas_eq _ _ (b :: id) G) in *.
  destruct (addType_eq _ _ (b :: id) SC) as [(S1' & S2' & A1 & A2 & SE)|(A1 & A2)];
    destruct (ahas (b :: id) (r_loaders s2)); cbn [r_scopes set_rloaders] in *; rewrite ?A1, ?A2 in *;
    (split; [constructor; cbn; auto using afind_snoc_eq|auto]).
Qed.

Lemma ralias_req s1 s2 id al : req s1 s2 ->
  req (fst (ralias s1 id al)) (fst (ralias s2 id al)) /\ snd (ralias s1 id al) = snd (ralias s2 id al).
Proof.
  intro Q. pose proof (pr_alias _ _ Inv_pres s1 id al (q_i1 _ _ Q)) as I1.
  pose proof (pr_alias _ _ Inv_pres s2 id al (q_i2 _ _ Q)) as I2.
  destruct Q as [J1 J2 A B C D F G SC]. unfold ralias in *.
  destruct id as [|b id]; [split; auto; constructor; auto|]. destruct al as [|b' al]; [split; auto; constructor; auto|].
  rewrite (ahas_eq _ _ (b' :: al) F) in *.
  destruct (ahas (b' :: al) (r_aliases s2)); (split; [constructor; cbn; auto using afind_snoc_eq|auto]).
Qed.

Lemma rnewtype_req s1 s2 id l : req s1 s2 -> id <> [] -> afind id (r_types s1) = None -> afind id (r_loaders s1) = Some l ->
  req (rnewtype s1 id l) (rnewtype s2 id l).
Proof.
  intros Q Ne T Ld. assert (T2 : afind id (r_types s2) = None) by (rewrite <- (q_types _ _ Q); auto).
  assert (L2 : afind id (r_loaders s2) = Some l) by (rewrite <- (q_load _ _ Q); auto).
  pose proof (pr_new _ _ Inv_pres s1 id l (q_i1 _ _ Q) T Ld Ne) as I1.
  pose proof (pr_new _ _ Inv_pres s2 id l (q_i2 _ _ Q) T2 L2 Ne) as I2.
  destruct Q as [J1 J2 A B C D F G SC]. constructor; cbn; auto; try congruence.
  intro i. destruct (list_eq_dec N.eq_dec i id) as [->|Ni]; [now rewrite !afind_aerase_same|now rewrite !afind_aerase_other].
Qed.

Lemma flags_req s1 s2 x : req s1 s2 -> req (set_rflags s1 x) (set_rflags s2 x).
Proof.
  intro Q. pose proof (pr_flags _ _ Inv_pres s1 x (q_i1 _ _ Q)) as I1.
  pose proof (pr_flags _ _ Inv_pres s2 x (q_i2 _ _ Q)) as I2.
  destruct Q as [J1 J2 A B C D F G SC]. constructor; cbn; auto.
Qed.

Definition par {A} (x y : rstate * outcome A) : Prop := req (fst x) (fst y) /\ snd x = snd y.

Lemma run_actions_req P g1 g2 : (forall s1 s2 id, req s1 s2 -> par (g1 s1 id) (g2 s2 id)) ->
  forall acts s1 s2, req s1 s2 -> par (run_actions g1 P s1 acts) (run_actions g2 P s2 acts).
Proof.
  intros G. induction acts as [|a acts IH]; intros s1 s2 Q; cbn [run_actions]; [split; auto|].
  assert (X : par (match a with
      | AGet id => let '(st1, r) := g1 s1 id in (st1, do _ <- r; Ok tt)
      | AAdd id l => radd s1 id l
      | AAlias id al => ralias s1 id al
      | AUse k =>
        match nth_error (p_templates P) k with
        | None => (s1, Ok tt)
        | Some (id, l) =>
          let '(st1, r1) := if existsb (Nat.eqb k) (r_flags s1) then (s1, Ok tt)
                            else radd (set_rflags s1 (k :: r_flags s1)) id l in
          match r1 with
          | Ok _ => let '(st2, r2) := g1 st1 id in (st2, do _ <- r2; Ok tt)
          | _ => (st1, r1)
          end
        end
      | AFail => (s1, Abort)
      end) (match a with
      | AGet id => let '(st1, r) := g2 s2 id in (st1, do _ <- r; Ok tt)
      | AAdd id l => radd s2 id l
      | AAlias id al => ralias s2 id al
      | AUse k =>
        match nth_error (p_templates P) k with
        | None => (s2, Ok tt)
        | Some (id, l) =>
          let '(st1, r1) := if existsb (Nat.eqb k) (r_flags s2) then (s2, Ok tt)
                            else radd (set_rflags s2 (k :: r_flags s2)) id l in
          match r1 with
          | Ok _ => let '(st2, r2) := g2 st1 id in (st2, do _ <- r2; Ok tt)
          | _ => (st1, r1)
          end
        end
      | AFail => (s2, Abort)
      end)).
  { destruct a as [id|id l|id al|k|].
    - destruct (G s1 s2 id Q) as (A & B). destruct (g1 s1 id), (g2 s2 id). cbn in *. subst. split; auto.
    - apply radd_req; auto.
    - apply ralias_req; auto.
    - destruct (nth_error (p_templates P) k) as [(id, l)|]; [|split; auto].
      rewrite (q_flags _ _ Q).
      assert (Y : par (if existsb (Nat.eqb k) (r_flags s2) then (s1, Ok tt) else radd (set_rflags s1 (k :: r_flags s2)) id l)
                      (if existsb (Nat.eqb k) (r_flags s2) then (s2, Ok tt) else radd (set_rflags s2 (k :: r_flags s2)) id l)).
      { destruct (existsb _ _); [split; auto|]. apply radd_req, flags_req, Q. }
      destruct (if existsb (Nat.eqb k) (r_flags s2) then (s1, Ok tt) else _) as (t1 & r1).
      destruct (if existsb (Nat.eqb k) (r_flags s2) then (s2, Ok tt) else _) as (t2 & r2).
      destruct Y as (Y1 & Y2). cbn in Y1, Y2. subst r2. destruct r1; try (split; auto; fail).
      destruct (G t1 t2 id Y1) as (A & B). destruct (g1 t1 id), (g2 t2 id). cbn in *. subst. split; auto.
    - split; auto. }
  destruct (match a with
      | AGet id => let '(st1, r) := g1 s1 id in (st1, do _ <- r; Ok tt)
      | AAdd id l => radd s1 id l
      | AAlias id al => ralias s1 id al
      | AUse k => _ | AFail => (s1, Abort) end) as (t1 & r1).
  destruct (match a with
      | AGet id => let '(st1, r) := g2 s2 id in (st1, do _ <- r; Ok tt)
      | AAdd id l => radd s2 id l
      | AAlias id al => ralias s2 id al
      | AUse k => _ | AFail => (s2, Abort) end) as (t2 & r2).
  destruct X as (X1 & X2). cbn in X1, X2. subst r2. destruct r1; try (split; auto; fail). apply IH, X1.
Qed.

Lemma get_f_req P : forall n s1 s2 id, req s1 s2 -> par (get_f n P s1 id) (get_f n P s2 id).
Proof.
  induction n as [|n IH]; intros s1 s2 id Q; cbn [get_f]; [split; auto|].
  assert (R : resolve s1 id = resolve s2 id) by (unfold resolve; now rewrite (q_alias _ _ Q)).
  rewrite R, (q_types _ _ Q). destruct (afind (resolve s2 id) (r_types s2)) as [t|] eqn:Et; [split; auto|].
  destruct (resolve s2 id) as [|b i] eqn:Er; [split; auto|]. rewrite (q_load _ _ Q).
  destruct (afind (b :: i) (r_loaders s2)) as [l|] eqn:El; [|split; auto].
  assert (Q1 : req (rnewtype s1 (b :: i) l) (rnewtype s2 (b :: i) l)).
  { apply rnewtype_req; auto; [discriminate|now rewrite (q_types _ _ Q)|now rewrite (q_load _ _ Q)]. }
  destruct (run_actions_req P (get_f n P) (get_f n P) IH (loader_code P l) _ _ Q1) as (A & B).
  destruct (run_actions (get_f n P) P (rnewtype s1 (b :: i) l) (loader_code P l)) as (t1 & r1).
  destruct (run_actions (get_f n P) P (rnewtype s2 (b :: i) l) (loader_code P l)) as (t2 & r2).
  cbn in A, B. subst r2. split; auto. cbn. now rewrite (q_objs _ _ Q).
Qed.

Lemma get_req P s1 s2 id : req s1 s2 -> par (get P s1 id) (get P s2 id).
Proof.
  intro Q. set (n := Datatypes.S (length (universe P s1) + length (universe P s2))).
  rewrite <- (get_any_fuel P s1 id n (q_i1 _ _ Q)) by (unfold n; lia).
  rewrite <- (get_any_fuel P s2 id n (q_i2 _ _ Q)) by (unfold n; lia).
  now apply get_f_req.
Qed.

Lemma step_req P s1 s2 a : req s1 s2 -> par (step P s1 a) (step P s2 a).
Proof. intro Q. unfold step. apply run_actions_req; auto. intros. now apply get_req. Qed.
Lemma run_req P h : forall s1 s2, req s1 s2 -> req (run P s1 h) (run P s2 h).
Proof.
  induction h as [|a h IH]; intros s1 s2 Q; cbn; auto. apply IH. apply (step_req P s1 s2 a Q).
Qed.

(* ---- what the initialisers leave ---- *)
Definition ops_of (L : list initialiser) : list wop :=
  flat_map (fun i => match i with IType x c _ => [WType x c] | _ => [] end) L.

Record started (L : list initialiser) (st : rstate) : Prop := {
  sd_inv : Inv st;
  sd_types : r_types st = []; sd_objs : r_objs st = []; sd_log : r_log st = []; sd_flags : r_flags st = [];
  sd_alias : forall id al, afind al (r_aliases st) = Some id <-> In (IAlias id al) L;
  sd_load : forall id l, afind id (r_loaders st) = Some l <-> exists x c, In (IType x c l) L /\ id = qname (x ++ [c]);
  sd_run : scope_run sinit (map wop_op (ops_of L)) = Ok (r_scopes st);
  sd_sc : agrees (ops_of L) (r_scopes st) }.

Lemma In_ops L x c : In (WType x c) (ops_of L) <-> exists l, In (IType x c l) L.
Proof.
  unfold ops_of. rewrite in_flat_map. split.
  - intros (i & Hi & Hw). destruct i as [y d l|]; [|destruct Hw]. destruct Hw as [[= -> ->]|[]]. eauto.
  - intros (l & Hl). exists (IType x c l). split; auto. now left.
Qed.
Lemma ops_only L o : In o (ops_of L) -> exists x c, o = WType x c.
Proof. unfold ops_of. rewrite in_flat_map. intros (i & _ & Hw). destruct i; [|destruct Hw]. destruct Hw as [<-|[]]. eauto. Qed.
Lemma reg_fns_ops L x c : reg_fns (ops_of L) x c = [].
Proof. induction L as [|i L IH]; auto. destruct i; cbn; auto. Qed.

Lemma afind_snoc {V} (m : list (str * V)) k v a : afind a (m ++ [(k, v)]) =
  match afind a m with Some w => Some w | None => if str_eqb a k then Some v else None end.
Proof. induction m as [|(k', w) m IH]; cbn; auto. destruct (str_eqb a k'); auto. Qed.

Lemma nodup_app_l {A} (l m : list A) : NoDup (l ++ m) -> NoDup l.
Proof. induction l as [|a l IH]; cbn; intro H; [constructor|]. inversion H; subst. constructor; auto. rewrite in_app_iff in *. tauto. Qed.
Lemma init_ok_app L i : init_ok (L ++ [i]) -> init_ok L.
Proof.
  intros [A B C D E F]. constructor.
  - intros x c l H. apply (A x c l), in_or_app; auto.
  - intros x c l y d l' H H'. apply (B x c l y d l'); apply in_or_app; auto.
  - intros x c l l' H H'. apply (C x c); apply in_or_app; auto.
  - intros id al H. apply (D id al), in_or_app; auto.
  - intros id id' al H H'. apply (E id id' al); apply in_or_app; auto.
  - rewrite filter_app in F. exact (nodup_app_l _ _ F).
Qed.

Lemma prefix_snoc_inv (x c1 : list str) d c2 : x = c1 ++ d :: c2 -> prefix (c1 ++ [d]) x.
Proof. intros ->. exists c2. now rewrite <- app_assoc. Qed.

Lemma start_step P L i st : started L st -> init_ok (L ++ [i]) ->
  exists st', run_actions (get P) P st [init_action i] = (st', Ok tt) /\ started (L ++ [i]) st'.
Proof.
  intros SD OK. destruct SD as [I1 T O Lg Fl Al Ld Rn Ag].
  destruct i as [x c l|id al]; cbn [init_action run_actions].
  - assert (Fc : Forall component (x ++ [c])) by (apply (io_names _ OK x c l); apply in_or_app; right; now left).
    assert (Ne : qname (x ++ [c]) <> []) by (apply qname_nonempty; auto; destruct x; discriminate).
    assert (NE : x ++ [c] <> []) by (destruct x; discriminate).
    pose proof (pr_add _ _ Inv_pres st (qname (x ++ [c])) l Logic.I I1) as I2.
    destruct (addType_views _ _ _ (Splits_qname _ NE Fc) (r_scopes st) 0 [] (ag_wf _ _ Ag) eq_refl (Datatypes.S (length (qname (x ++ [c])))))
      as [(B & _)|(_ & S' & A & _)]; [lia| |].
    { exfalso. destruct B as (c1 & d & c2 & Ex & [Ty|(os & Fn)]); cbn [app] in *.
      - apply (ag_type _ _ Ag) in Ty. unfold reg_type in Ty. apply In_ops in Ty as (l' & Hin).
        apply (io_nested _ OK c1 d l' x c l); [apply in_or_app; auto|apply in_or_app; right; now left|].
        eapply prefix_snoc_inv; eauto.
      - apply (ag_fn _ _ Ag) in Fn as (Fn & ->). rewrite reg_fns_ops in Fn. congruence. }
    fold (addType (r_scopes st) 0 (qname (x ++ [c]))) in A.
    unfold radd in *. destruct (qname (x ++ [c])) as [|b nm] eqn:En; [congruence|].
    assert (AG' : agrees (ops_of (L ++ [IType x c l])) S').
    { unfold ops_of. rewrite flat_map_app. cbn [flat_map app]. apply (agrees_step _ (WType x c) (r_scopes st)); auto.
      cbn [wop_op scope_step]. now rewrite En. }
    assert (RN' : scope_run sinit (map wop_op (ops_of (L ++ [IType x c l]))) = Ok S').
    { unfold ops_of. rewrite flat_map_app, map_app, scope_run_app. fold (ops_of L). rewrite Rn. cbn [bind flat_map app map scope_run].
      cbn [wop_op scope_step]. rewrite En, A. reflexivity. }
    assert (Ldx : forall id l0, afind id (if ahas (b :: nm) (r_loaders st) then r_loaders st else r_loaders st ++ [(b :: nm, l)]) = Some l0 <->
      exists x0 c0, In (IType x0 c0 l0) (L ++ [IType x c l]) /\ id = qname (x0 ++ [c0])).
    { intros id l0. unfold ahas. destruct (afind (b :: nm) (r_loaders st)) as [l1|] eqn:El1.
      - rewrite Ld. split.
        + intros (y & d & Hin & ->). exists y, d. split; auto. apply in_or_app; auto.
        + intros (y & d & Hin & ->). apply in_app_iff in Hin as [Hin|[Hin|[]]]; [eauto|].
          injection Hin as <- <- <-. rewrite <- Ld, En, El1.
          apply Ld in El1 as (y & d & Hin & Eq). rewrite <- En in Eq. apply qname_inj in Eq; auto.
          * apply app_inj_tail in Eq as (<- & <-). f_equal.
            apply (io_same _ OK x c); apply in_or_app; [left|right; left]; auto.
          * apply (io_names _ OK y d l1), in_or_app; auto.
      - rewrite afind_snoc. split.
        + destruct (afind id (r_loaders st)) as [l2|] eqn:E2.
          * intros [= ->]. apply Ld in E2 as (y & d & Hin & ->). exists y, d. split; auto. apply in_or_app; auto.
          * destruct (str_eqb id (b :: nm)) eqn:Es; [|discriminate]. apply str_eqb_eq in Es. intros [= ->]. subst id.
            exists x, c. split; [apply in_or_app; right; now left|now rewrite En].
        + intros (y & d & Hin & ->). apply in_app_iff in Hin as [Hin|[Hin|[]]].
          * assert (X : afind (qname (y ++ [d])) (r_loaders st) = Some l0) by (apply Ld; eauto). now rewrite X.
          * injection Hin as <- <- <-. rewrite En, El1.
            assert (X : str_eqb (b :: nm) (b :: nm) = true) by now apply str_eqb_eq. now rewrite X. }
    assert (ALx : forall id al, afind al (r_aliases st) = Some id <-> In (IAlias id al) (L ++ [IType x c l])).
    { intros id al. rewrite Al, in_app_iff. cbn. intuition discriminate. }
    destruct (ahas (b :: nm) (r_loaders st)) eqn:Eh; cbn [r_scopes set_rloaders] in *; rewrite A in *; cbn [fst] in I2;
      eexists; (split; [reflexivity|]); constructor; cbn [r_types r_objs r_log r_flags r_aliases r_loaders r_scopes set_rloaders set_rscopes] in *; auto.
  - destruct (io_filled _ OK id al) as (Ni & Na); [apply in_or_app; right; now left|].
    pose proof (pr_alias _ _ Inv_pres st id al I1) as I2.
    unfold ralias in *. destruct id as [|b id]; [congruence|]. destruct al as [|b' al]; [congruence|].
    assert (Nf : afind (b' :: al) (r_aliases st) = None).
    { destruct (afind (b' :: al) (r_aliases st)) as [id'|] eqn:E; auto. exfalso. apply Al in E.
      assert (Eq : id' = b :: id) by (eapply (io_once _ OK); apply in_or_app; [left; eauto|right; left; reflexivity]). subst id'.
      pose proof (io_nodup _ OK) as ND. rewrite filter_app in ND. cbn [filter] in ND. apply NoDup_remove_2 in ND.
      apply ND. rewrite app_nil_r. apply filter_In. auto. }
    unfold ahas in *. rewrite Nf in *. cbn [fst] in I2. eexists. split; [reflexivity|].
    constructor; cbn [r_types r_objs r_log r_flags r_aliases r_loaders r_scopes set_raliases] in *; auto.
    + intros id' al'. rewrite afind_snoc, in_app_iff. rewrite <- Al. cbn [In].
      destruct (afind al' (r_aliases st)) as [w|] eqn:Ew.
      * split; [auto|]. intros [H|[[= <- <-]|[]]]; auto. congruence.
      * destruct (str_eqb al' (b' :: al)) eqn:Es.
        -- apply str_eqb_eq in Es. subst al'. split; [intros [= ->]; auto|]. intros [H|[[= <-]|[]]]; [discriminate|auto].
        -- split; [discriminate|]. intros [H|[[= <- <-]|[]]]; [discriminate|].
           assert (X : str_eqb (b' :: al) (b' :: al) = true) by now apply str_eqb_eq. congruence.
    + intros id' l'. rewrite Ld. split; intros (x & c & Hin & ->); exists x, c; split; auto.
      * apply in_or_app; auto.
      * apply in_app_iff in Hin as [Hin|[Hin|[]]]; [auto|discriminate].
    + unfold ops_of. rewrite flat_map_app. cbn [flat_map app]. rewrite app_nil_r. exact Rn.
    + unfold ops_of. rewrite flat_map_app. cbn [flat_map app]. rewrite app_nil_r. exact Ag.
Qed.

Lemma started_init : started [] rinit.
Proof.
  constructor; auto using rinit_Inv; cbn; try reflexivity.
  - intros id al. split; [discriminate|tauto].
  - intros id l. split; [discriminate|]. intros (x & c & [] & _).
  - exact agrees_init.
Qed.

Lemma start_all P L : init_ok L -> exists st, start P (map init_action L) = (st, Ok tt) /\ started L st.
Proof.
  unfold start. induction L as [|i L IH] using rev_ind; intro OK.
  - exists rinit. split; auto using started_init.
  - destruct (IH (init_ok_app _ _ OK)) as (st & E & SD). rewrite map_app, run_actions_app, E.
    destruct (start_step P L i st SD OK) as (st' & E' & SD'). exists st'. split; auto.
Qed.

Lemma init_ok_perm L L' : Permutation L L' -> init_ok L -> init_ok L'.
Proof.
  intros Pm [A B C D E F].
  assert (X : forall i, In i L' -> In i L) by (intros i; apply Permutation_in, Permutation_sym, Pm).
  constructor; intros; eauto.
  eapply Permutation_NoDup; [|exact F]. clear -Pm. induction Pm; cbn; auto.
  - destruct x; auto.
  - destruct x, y; auto. apply perm_swap.
  - etransitivity; eauto.
Qed.

Lemma started_req L L' s s' : (forall i, In i L <-> In i L') -> started L s -> started L' s' -> req s s'.
Proof.
  intros SE [I1 T1 O1 L1 F1 A1 Ld1 R1 G1] [I2 T2 O2 L2 F2 A2 Ld2 R2 G2].
  assert (OPS : forall o, In o (ops_of L) <-> In o (ops_of L')).
  { intro o. split; intro H; destruct (ops_only _ _ H) as (x & c & ->); apply In_ops in H as (l & H);
      apply In_ops; exists l; now apply SE. }
  constructor; auto; try congruence.
  - intro a. destruct (afind a (r_aliases s)) as [v|] eqn:E.
    + apply A1, SE, A2 in E. now rewrite E.
    + destruct (afind a (r_aliases s')) as [v|] eqn:E'; auto. apply A2, SE, A1 in E'. congruence.
  - intro a. destruct (afind a (r_loaders s)) as [v|] eqn:E.
    + apply Ld1 in E as (x & c & Hin & ->). apply SE in Hin. symmetry. apply Ld2. eauto.
    + destruct (afind a (r_loaders s')) as [v|] eqn:E'; auto. apply Ld2 in E' as (x & c & Hin & ->). apply SE in Hin.
      assert (X : afind (qname (x ++ [c])) (r_loaders s) = Some v) by (apply Ld1; eauto). congruence.
  - constructor.
    + apply (ag_wf _ _ G1).
    + apply (ag_wf _ _ G2).
    + intro x. rewrite (ag_scope _ _ G1), (ag_scope _ _ G2). unfold reg_scope.
      split; (intros [->|(o & Hin & Hm)]; [now left|right; exists o; split; auto; now apply OPS]).
    + intros x c. rewrite (ag_type _ _ G1), (ag_type _ _ G2). apply OPS.
    + intros x c os. rewrite (ag_fn _ _ G1), (ag_fn _ _ G2), !reg_fns_ops. tauto.
Qed.
