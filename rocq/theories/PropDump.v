(* PropDump.v - C83: what Type::print and Scope::print say. *)
From Coq Require String. Import String.StringSyntax.
From Coq Require Import Permutation Sorted Relations.
From Verif Require Import Base ModelCore ModelScope ModelDump SpecCore SpecScope PropPrint SpecDump.
From Verif Require Import ProofCore ExCore ProofDump ProofDump2 ProofDump3 ProofDump4.
Local Open Scope nat_scope.

Lemma app_nl_inj (a b : str) : a ++ nl = b ++ nl -> a = b.
Proof. intro E. apply app_inj_tail in E. tauto. Qed.

Lemma Forall2_in_l {A B} (R : A -> B -> Prop) l l' : Forall2 R l l' -> forall x, In x l -> exists y, In y l' /\ R x y.
Proof.
  induction 1 as [|x0 y0 l l' E F IH]; intros x Hx; [inversion Hx|]. destruct Hx as [->|Hx]; [exists y0; cbn; auto|].
  destruct (IH x Hx) as (y & Hy & Ry). exists y. cbn. auto.
Qed.

(* ===== a type ===== *)
(* The text is the layout of what the registered type and its ancestors say. *)
Theorem c83_type_text : forall (D : decor) (H : heap) (T : tptr),
  wf_heap H -> members_valid H -> sorts D -> valid H T ->
  exists ts, says D H T ts /\
    forall indent, type_print D H indent T = Ok (joined (map (line_text indent) (type_lines 0 ts))).
Proof.
  intros D H T W M So V. destruct (type_text D H W M So _ T (wf_dbound H T W V) V) as (ts & A & B).
  exists ts. split; auto. intro m. destruct (B m 0) as (s & E & X). rewrite Nat.mul_0_r, Nat.add_0_r in E. unfold type_print. rewrite E. f_equal.
  rewrite out_joined in X by apply type_lines_ne. now apply app_nl_inj in X.
Qed.
Print Assumptions c83_type_text.

(* The indentation is put in front of every line and changes nothing else. *)
Lemma line_indent n l : l <> Gap -> line_text n l = repeat 32%N n ++ line_text 0 l.
Proof. destruct l as [d s|]; [|congruence]. intros _. cbn [line_text]. now rewrite repeat_app, app_assoc. Qed.

Lemma sections_gapless gap l : gap <> Gap -> Forall (Forall (fun x => x <> Gap)) l -> Forall (fun x => x <> Gap) (sections gap l).
Proof.
  intros G. induction 1 as [|x l A B IH]; [constructor|]. cbn [sections]. destruct x as [|y x]; auto.
  destruct (sections gap l) eqn:E; auto. apply Forall_app; auto.
Qed.
Lemma at_gapless {A} (f : A -> str) d l : Forall (fun x => x <> Gap) (map (fun x => At d (f x)) l).
Proof. induction l; constructor; auto; discriminate. Qed.
Lemma traits_gapless d l : Forall (fun x => x <> Gap) (traits_lines d l).
Proof. destruct l; repeat constructor; discriminate. Qed.
Lemma fns_gapless d l : Forall (fun x => x <> Gap) (fns_lines d l).
Proof.
  induction l as [|o l IH]; [constructor|]. rewrite fns_lines_cons. constructor; [discriminate|]. apply Forall_app; split; auto.
  apply Forall_app; split; [apply traits_gapless|apply at_gapless].
Qed.
Fixpoint type_gapless (ts : tsum) : forall d, Forall (fun x => x <> Gap) (type_lines d ts).
Proof.
  destruct ts as [id p tr fs os]. intro d. cbn [type_lines]. repeat (constructor; [discriminate|]). apply Forall_app. split; [|repeat constructor; discriminate].
  apply sections_gapless; [discriminate|]. constructor; [destruct p; [apply type_gapless|constructor]|].
  repeat (constructor; [first [apply traits_gapless|apply at_gapless|apply fns_gapless]|]). constructor.
Qed.

Theorem c83_type_indent : forall (D : decor) (H : heap) (T : tptr) (indent : nat) (s s0 : str),
  wf_heap H -> members_valid H -> sorts D -> good_types D H -> valid H T ->
  type_print D H 0 T = Ok s0 -> type_print D H indent T = Ok s ->
  lines_of s = map (fun l => repeat 32%N indent ++ l) (lines_of s0).
Proof.
  intros D H T n s s0 W M So G V E0 E. destruct (c83_type_text D H T W M So V) as (ts & A & B).
  rewrite B in E, E0. injection E as <-. injection E0 as <-.
  pose proof (good_type ts (says_plain D H T ts G A) 0) as GL.
  assert (Q : forall m, lines_of (joined (map (line_text m) (type_lines 0 ts))) = map (line_text m) (type_lines 0 ts)).
  { intro m. apply lines_joined.
    - intro E. apply map_eq_nil in E. now apply type_lines_ne in E.
    - apply Forall_forall. intros x Hx. apply in_map_iff in Hx as (l & <- & Hl). apply line_no_nl. rewrite Forall_forall in GL. auto. }
  rewrite !Q, map_map. apply map_ext_in. intros l Hl. apply line_indent. pose proof (type_gapless ts 0) as F. rewrite Forall_forall in F. auto.
Qed.
Print Assumptions c83_type_indent.

(* Nothing is lost: two registries (or two states of one) whose types print alike say the
   same of them. *)
Theorem c83_type_unambiguous : forall (D1 D2 : decor) (H1 H2 : heap) (T1 T2 : tptr) (indent : nat) (s : str),
  wf_heap H1 -> members_valid H1 -> sorts D1 -> good_types D1 H1 -> valid H1 T1 ->
  wf_heap H2 -> members_valid H2 -> sorts D2 -> good_types D2 H2 -> valid H2 T2 ->
  type_print D1 H1 indent T1 = Ok s -> type_print D2 H2 indent T2 = Ok s ->
  exists ts, says D1 H1 T1 ts /\ says D2 H2 T2 ts.
Proof.
  intros D1 D2 H1 H2 T1 T2 n s W1 M1 S1 G1 V1 W2 M2 S2 G2 V2 E1 E2.
  destruct (c83_type_text D1 H1 T1 W1 M1 S1 V1) as (t1 & A1 & B1). destruct (c83_type_text D2 H2 T2 W2 M2 S2 V2) as (t2 & A2 & B2).
  rewrite B1 in E1. rewrite B2 in E2. assert (E : joined (map (line_text n) (type_lines 0 t1)) = joined (map (line_text n) (type_lines 0 t2))) by congruence.
  pose proof (says_plain _ _ _ _ G1 A1) as P1. pose proof (says_plain _ _ _ _ G2 A2) as P2.
  apply texts_inj in E; try apply type_lines_ne; try (apply good_type; assumption). rewrite !type_visible in E.
  assert (E' : tcore 0 t1 ++ [] = tcore 0 t2 ++ []) by (rewrite !app_nil_r; exact E).
  apply tcore_prefix in E' as [-> _]; auto. exists t2. auto.
Qed.
Print Assumptions c83_type_unambiguous.

(* Every field, trait list and overload of the type and of its ancestors is on a line. *)
Inductive steps_up (H : heap) : nat -> tptr -> tptr -> Prop :=
| up_0 a : steps_up H 0 a a
| up_S n a p b : parent_of H a p -> steps_up H n p b -> steps_up H (S n) a b.

Lemma in_sections gap l x y : In x l -> In y x -> In y (sections gap l).
Proof.
  induction l as [|z l IH]; intros Hx Hy; [inversion Hx|]. cbn [sections]. destruct Hx as [->|Hx].
  - destruct x as [|a x]; [inversion Hy|]. destruct (sections gap l); auto. apply in_or_app. auto.
  - specialize (IH Hx Hy). destruct z as [|a z]; auto. destruct (sections gap l); [inversion IH|]. apply in_or_app. right. now right.
Qed.
Lemma in_type_lines d id p tr fs os x :
  In x (match p with Some pu => type_lines (d + 1) pu | None => [] end) \/ In x (traits_lines (d + 1) tr) \/
  In x (map (fun f => At (d + 1) (field_text f)) fs) \/ In x (fns_lines (d + 1) os) -> In x (type_lines d (TSum id p tr fs os)).
Proof.
  intro K. cbn [type_lines]. apply in_or_app. right. apply in_or_app. left.
  destruct K as [K|[K|[K|K]]]; (eapply in_sections; [|exact K]); cbn [In]; auto.
Qed.
Lemma in_joined : forall l x, In x l -> Forall (fun s => ~ In 10%N s) l -> In x (lines_of (joined l)).
Proof. intros l x Hx F. rewrite lines_joined; auto. intros ->. inversion Hx. Qed.
Lemma up_lines D H n a b : steps_up H n a b -> forall ts, says D H a ts -> exists tb, says D H b tb /\
  forall d x, In x (type_lines (d + n) tb) -> In x (type_lines d ts).
Proof.
  induction 1 as [a|n a p b P U IH]; intros ts A.
  - exists ts. split; auto. intros d x. now rewrite Nat.add_0_r.
  - inversion A as [T t fl q fs os Et Pq Bo Ff Fo]; subst. destruct P as (t' & Et' & Ep). assert (t' = t) by congruence. subst t'. rewrite Ep in Pq.
    inversion Pq as [|q2 pu Sq]; subst. destruct (IH pu Sq) as (tb & Sb & Q). exists tb. split; auto. intros d x Hx. apply in_type_lines. left.
    apply Q. now replace (d + 1 + n) with (d + S n) by lia.
Qed.
Lemma in_fns_lines d os o x : In o os -> In x (At d (os_name o ++ lit ":") :: traits_lines (d + 1) (os_traits o) ++ map (fun g => At (d + 1) (sig_text g)) (os_sigs o)) ->
  In x (fns_lines d os).
Proof. intros Ho Hx. unfold fns_lines. apply in_concat. eexists. split; [|exact Hx]. apply in_map_iff. eauto. Qed.

Theorem c83_type_shows : forall (D : decor) (H : heap) (T A : tptr) (t : typerec) (n indent : nat) (s : str),
  wf_heap H -> members_valid H -> sorts D -> good_types D H -> valid H T ->
  type_print D H indent T = Ok s -> steps_up H n T A -> tget H A = Some t ->
  let line k x := In (repeat 32%N (indent + 4 * (n + k)) ++ x) (lines_of s) in
  line 0 (lit "type " ++ t_id t) /\
  (t_traits t <> [] -> line 1 (traits_text (t_traits t))) /\
  (forall k f, In (k, f) (t_fields t) -> exists ft, tget H (a_type (fd_arg f)) = Some ft /\
     line 1 (lit "0x" ++ hex (fd_offset f) ++ lit ": " ++ t_id ft ++ lit " " ++ fd_name f ++
             match fd_traits f with [] => [] | l => lit " " ++ traits_text l end)) /\
  (forall k o, In (k, o) (t_fns t) ->
     line 1 (k ++ lit ":") /\ (ov_traits D A k <> [] -> line 2 (traits_text (ov_traits D A k))) /\
     forall f, In f o -> exists sg, signature H (f_ret f) (f_args f) = Ok sg /\ line 2 sg).
Proof.
  intros D H T A t n m s W M So G V E U Et line. destruct (c83_type_text D H T W M So V) as (ts & SA & B).
  rewrite B in E. injection E as <-. destruct (up_lines D H n T A U ts SA) as (tb & Sb & Q). specialize (Q 0). cbn [Nat.add] in Q.
  pose proof (good_type ts (says_plain D H T ts G SA) 0) as GL.
  assert (L : forall k x, In (At (n + k) x) (type_lines n tb) -> line k x).
  { intros k x Hx. unfold line. apply in_joined.
    - change (repeat 32%N (m + 4 * (n + k)) ++ x) with (line_text m (At (n + k) x)). apply in_map. now apply Q.
    - apply Forall_forall. intros y Hy. apply in_map_iff in Hy as (l & <- & Hl). apply line_no_nl. rewrite Forall_forall in GL. auto. }
  inversion Sb as [T' t' fl q fs os Et' Pq Bo Ff Fo]; subst. assert (t' = t) by congruence. subst t'.
  split; [|split; [|split]].
  - apply L. rewrite Nat.add_0_r. cbn [type_lines]. now left.
  - intro Ht. apply L. apply in_type_lines. right. left. unfold traits_lines. destruct (t_traits t); [congruence|now left].
  - intros k f Hf. destruct Bo as [Pm _]. assert (Hin : In f fl).
    { apply (Permutation_in f (Permutation_sym Pm)). change f with (snd (k, f)). now apply in_map. }
    destruct (Forall2_in_l _ _ _ Ff f Hin) as (y & Hy & ft & Eft & ->). exists ft. split; auto. apply L. apply in_type_lines. right. right. left.
    apply in_map_iff. eexists. split; [|exact Hy]. reflexivity.
  - intros k o Ho. destruct (Forall2_in_l _ _ _ Fo _ Ho) as (y & Hy & E1 & E2 & E3). cbn [fst snd] in E1, E2, E3. rewrite <- E1, <- E2 in *.
    assert (L2 : forall j x, In (At (n + j) x) (At (n + 1) (os_name y ++ lit ":") :: traits_lines (n + 1 + 1) (os_traits y) ++ map (fun g => At (n + 1 + 1) (sig_text g)) (os_sigs y)) -> line j x).
    { intros j x Hx. apply L. apply in_type_lines. right. right. right. eapply in_fns_lines; eauto. }
    split; [|split].
    + apply L2. now left.
    + intro Ht. apply L2. right. apply in_or_app. left. unfold traits_lines. destruct (os_traits y); [congruence|left; f_equal; lia].
    + intros f Hf. destruct (Forall2_in_l _ _ _ E3 f Hf) as (g & Hg & Sg). exists (sig_text g). split; [now apply fn_says_print|].
      apply L2. right. apply in_or_app. right. apply in_map_iff. exists g. split; auto. f_equal. lia.
Qed.
Print Assumptions c83_type_shows.

(* ===== a scope ===== *)
Theorem c83_scope_text : forall (D : decor) (H : heap) (S : sheap) (p : sptr),
  wf_scopes S -> scope_members_valid H S -> p < length S ->
  exists ss, scope_says D H S p ss /\
    forall indent, scope_print D H S indent p = Ok (joined (map (line_text indent) (scope_lines 0 ss)) ++ [10%N]).
Proof.
  intros D H S p W M L. destruct (scope_text D H S W M (Datatypes.S (length S)) p L ltac:(lia)) as (ss & A & B).
  exists ss. split; auto. intro m. specialize (B m 0). rewrite Nat.mul_0_r, Nat.add_0_r in B. unfold scope_print. rewrite B. f_equal.
  rewrite out_joined by apply scope_lines_ne. reflexivity.
Qed.
Print Assumptions c83_scope_text.

Lemma visible_nl : forall s, visible (s ++ [10%N]) = visible s.
Proof.
  intro s. unfold visible.
  assert (Q : lines_of (s ++ [10%N]) = lines_of s ++ [[]]).
  { induction s as [|c s IH]; [reflexivity|]. cbn [app lines_of]. destruct (N.eqb c 10); [now rewrite IH|]. rewrite IH.
    destruct (lines_of s) eqn:E; [|reflexivity]. exfalso. destruct s as [|c' s]; cbn in E; [discriminate|]. destruct (N.eqb c' 10); [discriminate|].
    destruct (lines_of s); discriminate. }
  rewrite Q, filter_app. cbn. apply app_nil_r.
Qed.
Lemma shown_not_gap l : shown l = true -> l <> Gap.
Proof. destruct l; cbn; congruence. Qed.

(* The indentation is put in front of every line that is not blank. *)
Theorem c83_scope_indent : forall (D : decor) (H : heap) (S : sheap) (p : sptr) (indent : nat) (s s0 : str),
  wf_scopes S -> scope_members_valid H S -> good_types D H -> good_scopes D S -> p < length S ->
  scope_print D H S 0 p = Ok s0 -> scope_print D H S indent p = Ok s ->
  visible s = map (fun l => repeat 32%N indent ++ l) (visible s0).
Proof.
  intros D H S p n s s0 W M G GS L E0 E. destruct (c83_scope_text D H S p W M L) as (ss & A & B).
  rewrite B in E, E0. injection E as <-. injection E0 as <-. rewrite !visible_nl.
  pose proof (good_scope ss (scope_says_plain _ _ _ _ _ G GS A) 0) as GL.
  rewrite !visible_lines by (try apply scope_lines_ne; assumption). rewrite map_map. apply map_ext_in. intros l Hl.
  apply filter_In in Hl as [_ Hl]. apply line_indent. now apply shown_not_gap.
Qed.
Print Assumptions c83_scope_indent.

Theorem c83_scope_unambiguous : forall (D1 D2 : decor) (H1 H2 : heap) (S1 S2 : sheap) (p1 p2 : sptr) (indent : nat) (s : str),
  wf_scopes S1 -> scope_members_valid H1 S1 -> good_types D1 H1 -> good_scopes D1 S1 -> p1 < length S1 ->
  wf_scopes S2 -> scope_members_valid H2 S2 -> good_types D2 H2 -> good_scopes D2 S2 -> p2 < length S2 ->
  scope_print D1 H1 S1 indent p1 = Ok s -> scope_print D2 H2 S2 indent p2 = Ok s ->
  exists ss, scope_says D1 H1 S1 p1 ss /\ scope_says D2 H2 S2 p2 ss.
Proof.
  intros D1 D2 H1 H2 S1 S2 p1 p2 n s W1 M1 G1 K1 L1 W2 M2 G2 K2 L2 E1 E2.
  destruct (c83_scope_text D1 H1 S1 p1 W1 M1 L1) as (t1 & A1 & B1). destruct (c83_scope_text D2 H2 S2 p2 W2 M2 L2) as (t2 & A2 & B2).
  rewrite B1 in E1. rewrite B2 in E2.
  assert (E : joined (map (line_text n) (scope_lines 0 t1)) = joined (map (line_text n) (scope_lines 0 t2))).
  { injection E1 as E1. injection E2 as E2. apply app_nl_inj. unfold nl. congruence. }
  pose proof (scope_says_plain _ _ _ _ _ G1 K1 A1) as P1. pose proof (scope_says_plain _ _ _ _ _ G2 K2 A2) as P2.
  apply texts_inj in E; try apply scope_lines_ne; try (apply good_scope; assumption). rewrite !scope_visible in E.
  assert (E' : score 0 t1 ++ [] = score 0 t2 ++ []) by (rewrite !app_nil_r; exact E).
  apply score_prefix in E' as [-> _]; auto. exists t2. auto.
Qed.
Print Assumptions c83_scope_unambiguous.

(* Everything declared in the scope and in those inside is on a line, at the depth of its
   path. *)
Lemma in_scope_lines d name tr os ts cs x :
  In x (traits_lines (d + 1) tr) \/ In x (fns_lines (d + 1) os) \/ In x (map (decl (d + 1)) ts) \/
  (exists c, In c cs /\ In x (scope_lines (d + 1) c)) -> In x (scope_lines d (SSum name tr os ts cs)).
Proof.
  intro K. cbn [scope_lines]. apply in_or_app. right. destruct K as [K|K]; [apply in_or_app; now left|].
  apply in_or_app. right. apply in_or_app. left.
  destruct K as [K|[K|(c & Hc & K)]]; [eapply in_sections; [|exact K]; cbn [In]; auto..|].
  eapply in_sections; [right; right; left; reflexivity|]. apply in_concat. eexists. split; [apply in_map; exact Hc|]. apply in_or_app. now left.
Qed.
Lemma scopes_say_in D H S l cs : scopes_say D H S l cs -> forall k q, In (k, q) l -> exists c, In c cs /\ scope_says D H S q c.
Proof.
  induction 1 as [|k0 q0 l c cs A B IH]; intros k q Hk; [inversion Hk|]. destruct Hk as [E|Hk].
  - injection E as <- <-. exists c. cbn; auto.
  - destruct (IH _ _ Hk) as (c' & Hc & Sc). exists c'. cbn; auto.
Qed.
Lemma walk_lines D H S : forall x p q, walk S p x = Some q -> forall ss, scope_says D H S p ss -> exists sq, scope_says D H S q sq /\
  forall d y, In y (scope_lines (d + length x) sq) -> In y (scope_lines d ss).
Proof.
  induction x as [|c x IH]; intros p q Wk ss A; cbn [walk] in Wk.
  - injection Wk as <-. exists ss. split; auto. intros d y. cbn. now rewrite Nat.add_0_r.
  - inversion A as [p0 s os cs Es Fo Sc]; subst. rewrite Es in Wk. destruct (afind c (s_scopes s)) as [b|] eqn:Ea; [|discriminate].
    apply afind_In in Ea. destruct (scopes_say_in _ _ _ _ _ Sc _ _ Ea) as (cs1 & Hc & Sb). destruct (IH _ _ Wk _ Sb) as (sq & Sq & Q).
    exists sq. split; auto. intros d y Hy. apply in_scope_lines. right. right. right. exists cs1. split; auto. apply Q.
    cbn [length] in Hy. now replace (d + 1 + length x) with (d + Datatypes.S (length x)) by lia.
Qed.

Theorem c83_scope_shows : forall (D : decor) (H : heap) (S : sheap) (p q : sptr) (path : list str) (sc : scoperec) (indent : nat) (s : str),
  wf_scopes S -> scope_members_valid H S -> good_types D H -> good_scopes D S -> p < length S ->
  scope_print D H S indent p = Ok s -> walk S p path = Some q -> sget S q = Some sc ->
  let line k x := In (repeat 32%N (indent + 4 * (length path + k)) ++ x) (lines_of s) in
  line 0 (lit "scope " ++ s_name sc) /\
  (sc_traits D q <> [] -> line 1 (traits_text (sc_traits D q))) /\
  (forall k t, In (k, t) (s_types sc) -> line 1 (lit "type " ++ k ++ lit ";")) /\
  (forall k o, In (k, o) (s_fns sc) ->
     line 1 (k ++ lit ":") /\ (sc_ov_traits D q k <> [] -> line 2 (traits_text (sc_ov_traits D q k))) /\
     forall f, In f o -> exists sg, signature H (f_ret f) (f_args f) = Ok sg /\ line 2 sg).
Proof.
  intros D H S p q path sc m s W M G GS L E Wk Es line. destruct (c83_scope_text D H S p W M L) as (ss & SA & B).
  rewrite B in E. injection E as <-. destruct (walk_lines D H S path p q Wk ss SA) as (sq & Sq & Q). specialize (Q 0). cbn [Nat.add] in Q.
  pose proof (good_scope ss (scope_says_plain _ _ _ _ _ G GS SA) 0) as GL. set (n := length path) in *.
  assert (Lx : forall k x, In (At (n + k) x) (scope_lines n sq) -> line k x).
  { intros k x Hx. unfold line.
    assert (K : In (repeat 32%N (m + 4 * (n + k)) ++ x) (lines_of (joined (map (line_text m) (scope_lines 0 ss))))).
    { apply in_joined.
      - change (repeat 32%N (m + 4 * (n + k)) ++ x) with (line_text m (At (n + k) x)). apply in_map. now apply Q.
      - apply Forall_forall. intros y Hy. apply in_map_iff in Hy as (l & <- & Hl). apply line_no_nl. rewrite Forall_forall in GL. auto. }
    revert K. generalize (joined (map (line_text m) (scope_lines 0 ss))). intros t K.
    assert (X : lines_of (t ++ [10%N]) = lines_of t ++ [[]]).
    { clear. induction t as [|c s IH]; [reflexivity|]. cbn [app lines_of]. destruct (N.eqb c 10); [now rewrite IH|]. rewrite IH.
      destruct (lines_of s) eqn:E; [|reflexivity]. exfalso. destruct s as [|c' s]; cbn in E; [discriminate|]. destruct (N.eqb c' 10); [discriminate|].
      destruct (lines_of s); discriminate. }
    rewrite X. apply in_or_app. now left. }
  inversion Sq as [q' s' os cs Es' Fo Sc]; subst. assert (s' = sc) by congruence. subst s'.
  split; [|split; [|split]].
  - apply Lx. rewrite Nat.add_0_r. cbn [scope_lines]. now left.
  - intro Ht. apply Lx. apply in_scope_lines. left. unfold traits_lines. destruct (sc_traits D q); [congruence|now left].
  - intros k t Ht. apply Lx. apply in_scope_lines. right. right. left. apply in_map_iff. exists k. split; [reflexivity|].
    change k with (fst (k, t)). now apply in_map.
  - intros k o Ho. destruct (Forall2_in_l _ _ _ Fo _ Ho) as (y & Hy & E1 & E2 & E3). cbn [fst snd] in E1, E2, E3. rewrite <- E1, <- E2 in *.
    assert (L2 : forall j x, In (At (n + j) x) (At (n + 1) (os_name y ++ lit ":") :: traits_lines (n + 1 + 1) (os_traits y) ++ map (fun g => At (n + 1 + 1) (sig_text g)) (os_sigs y)) -> line j x).
    { intros j x Hx. apply Lx. apply in_scope_lines. right. left. eapply in_fns_lines; eauto. }
    split; [|split].
    + apply L2. now left.
    + intro Ht. apply L2. right. apply in_or_app. left. unfold traits_lines. destruct (os_traits y); [congruence|left; f_equal; lia].
    + intros f Hf. destruct (Forall2_in_l _ _ _ E3 f Hf) as (g & Hg & Sg). exists (sig_text g). split; [now apply fn_says_print|].
      apply L2. right. apply in_or_app. right. apply in_map_iff. exists g. split; auto. f_equal. lia.
Qed.
Print Assumptions c83_scope_shows.

(* ===== what is false ===== *)
(* Field::print leaves out the constness of the field. *)
Definition f_heap (c : bool) : heap :=
  Heap [ newType (lit "void"); newType (lit "reflect::Value"); newType (lit "int");
         Type_ (lit "Box") None [] [] None [ (lit "x", Field (lit "x") (Arg 2 Copy c) 8 []) ] [] ] 0 1.
Definition no_decor : decor := Decor (fun _ _ => []) (fun _ _ => []) (fun _ => []) (fun l => l).
Theorem c83_constness_refuted : f_heap true <> f_heap false /\
  forall indent, exists s, type_print no_decor (f_heap true) indent 3 = Ok s /\ type_print no_decor (f_heap false) indent 3 = Ok s.
Proof. split; [discriminate|]. intro n. eexists. split; reflexivity. Qed.
Print Assumptions c83_constness_refuted.

(* The line after a nested scope is not indented. *)
Definition two_scopes : sheap := match scope_run sinit [OpScope 0 (lit "a")] with Ok Z => Z | _ => [] end.
Definition gap_text : str := Eval vm_compute in match scope_print no_decor exHeap two_scopes 2 0 with Ok s => s | _ => [] end.
Theorem c83_scope_gap_refuted : exists s a b,
  scope_print no_decor exHeap two_scopes 2 0 = Ok s /\ lines_of s = a ++ [] :: b /\ existsb (fun l => negb (blank l)) b = true.
Proof. exists gap_text, (firstn 5 (lines_of gap_text)), (skipn 6 (lines_of gap_text)). vm_compute. repeat split. Qed.
Print Assumptions c83_scope_gap_refuted.

(* A type that is its own ancestor is printed for ever. *)
Theorem c83_cycle_refuted : forall (D : decor) (indent n : nat), type_print_f n D cycHeap indent 2 = OutOfFuel.
Proof.
  intros D m n. assert (Q : forall n m, type_print_f n D cycHeap m 2 = OutOfFuel /\ type_print_f n D cycHeap m 3 = OutOfFuel).
  { clear. induction n as [|n IH]; intro m; [split; reflexivity|]. destruct (IH (m + 4)) as [A B]. split; cbn -[Nat.add]; [now rewrite B|now rewrite A]. }
  apply Q.
Qed.
Print Assumptions c83_cycle_refuted.

(* ===== a case ===== *)
Fixpoint fins (f : field) (l : list field) : list field :=
  match l with [] => [f] | g :: l' => if (fd_offset f <=? fd_offset g)%N then f :: l else g :: fins f l' end.
Definition fsort (l : list field) : list field := fold_right fins [] l.
Lemma fins_perm f l : Permutation (fins f l) (f :: l).
Proof. induction l as [|g l IH]; cbn; auto. destruct (_ <=? _)%N; auto. rewrite IH. apply perm_swap. Qed.
Lemma fins_sorted f l : StronglySorted (fun f g => (fd_offset f <= fd_offset g)%N) l -> StronglySorted (fun f g => (fd_offset f <= fd_offset g)%N) (fins f l).
Proof.
  induction 1 as [|g l A IH F]; cbn; [repeat constructor|]. destruct (N.leb_spec (fd_offset f) (fd_offset g)).
  - constructor; [constructor; auto|]. constructor; auto. eapply Forall_impl; [|exact F]. cbn. intros; lia.
  - constructor; auto. eapply Permutation_Forall; [symmetry; apply fins_perm|]. constructor; auto. lia.
Qed.
Definition ex_decor : decor :=
  Decor (fun T k => if str_eqb k (lit "foo") then [lit "virtual"] else []) (fun _ _ => []) (fun p => if Nat.eqb p 1 then [lit "inner"] else []) fsort.
Lemma ex_sorts : sorts ex_decor.
Proof.
  intro l. cbn [sort_fields ex_decor]. induction l as [|f l [A B]]; [split; constructor|]. cbn [fsort fold_right].
  split; [rewrite fins_perm; now constructor|now apply fins_sorted].
Qed.
Lemma ex_members : members_valid exHeap.
Proof.
  intros T t E. pose proof (exHeap_cases _ _ E) as B. unfold fn_valid, arg_valid, valid.
  do 10 (destruct T as [|T]; [cbn in E; injection E as <-; split; cbn; intros; intuition (subst; try congruence; repeat match goal with X : (_, _) = (_, _) |- _ => injection X as <- <- end;
    cbn in *; intuition (subst; cbn; repeat constructor; lia))|]). lia.
Qed.

Definition wordb (w : str) : bool := negb (str_eqb w []) && forallb (fun c => negb (N.eqb c 10) && negb (N.eqb c 32) && negb (N.eqb c 58) && negb (N.eqb c 91) && negb (N.eqb c 93)) w.
Lemma wordb_ok w : wordb w = true -> word w.
Proof.
  unfold wordb. intro E. apply andb_prop in E as [E F]. split; [intros ->; discriminate|]. intros c Hc. rewrite forallb_forall in F. specialize (F c Hc).
  repeat (apply andb_prop in F as [F ?]). repeat match goal with X : negb (N.eqb c _) = true |- _ => apply negb_true_iff, N.eqb_neq in X end. auto.
Qed.
Definition one_lineb (s : str) : bool := forallb (fun c => negb (N.eqb c 10)) s && negb (N.eqb (hd 0%N s) 32).
Lemma no_nlb s : forallb (fun c => negb (N.eqb c 10)) s = true -> ~ In 10%N s.
Proof. intros E K. rewrite forallb_forall in E. specialize (E _ K). discriminate. Qed.
Lemma one_lineb_ok s : one_lineb s = true -> one_line s.
Proof. unfold one_lineb. intro E. apply andb_prop in E as [E F]. split; [now apply no_nlb|]. intros (z & ->). discriminate. Qed.
Lemma last_not c s : hd 0%N (rev s) <> c -> ~ ends_with [c] s.
Proof. intros X (z & ->). rewrite rev_app_distr in X. cbn in X. congruence. Qed.
Definition idb (i : str) : bool :=
  (negb (str_eqb i []) && negb (existsb (N.eqb 40) i) && negb (existsb (N.eqb 44) i)
    && match rev i with 38%N :: _ => false | _ => true end && negb (fst (peel_const (rev i))))
  && one_lineb i && negb (N.eqb (hd 0%N i) 91) && negb (N.eqb (hd 0%N (rev i)) 58).
Lemma idb_ok i : idb i = true -> good_id i.
Proof.
  unfold idb. intro E. apply andb_prop in E as [E E4]. apply andb_prop in E as [E E3]. apply andb_prop in E as [E1 E2].
  split; [now apply plain_check|]. split; [now apply one_lineb_ok|]. split; [intros (z & ->); discriminate|].
  apply last_not. now apply negb_true_iff, N.eqb_neq in E4.
Qed.
Lemma forallb_P {A} (f : A -> bool) (P : A -> Prop) l : (forall x, f x = true -> P x) -> forallb f l = true -> Forall P l.
Proof. intros Q E. rewrite forallb_forall in E. apply Forall_forall. auto. Qed.
Definition typeb (D : decor) (T : tptr) (t : typerec) : bool :=
  idb (t_id t) && forallb wordb (t_traits t) && forallb (fun nf => wordb (fd_name (snd nf)) && forallb wordb (fd_traits (snd nf))) (t_fields t)
  && forallb (fun no => one_lineb (fst no) && forallb wordb (ov_traits D T (fst no))) (t_fns t).
Lemma typeb_ok D T t : typeb D T t = true -> good_id (t_id t) /\ Forall word (t_traits t) /\
  (forall n f, In (n, f) (t_fields t) -> word (fd_name f) /\ Forall word (fd_traits f)) /\
  (forall n o, In (n, o) (t_fns t) -> one_line n /\ Forall word (ov_traits D T n)).
Proof.
  unfold typeb. intro E. apply andb_prop in E as [E E4]. apply andb_prop in E as [E E3]. apply andb_prop in E as [E1 E2].
  rewrite forallb_forall in E3, E4.
  split; [now apply idb_ok|]. split; [revert E2; apply forallb_P, wordb_ok|]. split; intros n x Hx.
  - specialize (E3 _ Hx). apply andb_prop in E3 as [A B]. split; [now apply wordb_ok|revert B; apply forallb_P, wordb_ok].
  - specialize (E4 _ Hx). apply andb_prop in E4 as [A B]. split; [now apply one_lineb_ok|revert B; apply forallb_P, wordb_ok].
Qed.
Lemma ex_good : good_types ex_decor exHeap.
Proof.
  intros T t E. apply typeb_ok. pose proof (exHeap_cases _ _ E) as B.
  do 10 (destruct T as [|T]; [cbn in E; injection E as <-; reflexivity|]). lia.
Qed.

Example c83_ex :
  wf_heap exHeap /\ members_valid exHeap /\ sorts ex_decor /\ good_types ex_decor exHeap /\ valid exHeap 4 /\ steps_up exHeap 1 4 3 /\
  type_print ex_decor exHeap 0 4 = Ok (joined
    [ lit "type Derived"; lit "{";
      lit "    type Base"; lit "    {";
      lit "        0x0: int x";
      lit "        ";
      lit "        foo:"; lit "            [ virtual ]"; lit "            int(Base const&)";
      lit "        Base:"; lit "            Base()"; lit "            Base(Base const&)";
      lit "    }";
      lit "    ";
      lit "    0x8: int y";
      lit "    ";
      lit "    foo:"; lit "        [ virtual ]"; lit "        int(Derived&)";
      lit "    bar:"; lit "        void(Derived const&, int)";
      lit "}" ]).
Proof.
  split; [apply exHeap_wf|]. split; [apply ex_members|]. split; [apply ex_sorts|]. split; [apply ex_good|]. split; [cbv; lia|]. split.
  - eapply up_S; [|apply up_0]. eexists. split; reflexivity.
  - vm_compute. reflexivity.
Qed.

Definition ex_scopes : sheap := Eval vm_compute in match scope_run sinit
  [OpScope 0 (lit "a"); OpAddFunction exHeap 0 (lit "a::get") (Fn (lit "get") (Arg 2 Copy false) [] 9); OpAddType 0 (lit "a::T"); OpAddType 0 (lit "U")] with Ok Z => Z | _ => [] end.
Example c83_scope_ex :
  wf_scopes ex_scopes /\ scope_members_valid exHeap ex_scopes /\ good_scopes ex_decor ex_scopes /\ 0 < length ex_scopes /\ walk ex_scopes 0 [lit "a"] = Some 1 /\
  scope_print ex_decor exHeap ex_scopes 0 0 = Ok (joined
    [ lit "scope "; lit "{";
      lit "    type U;"; [];
      lit "    scope a"; lit "    {";
      lit "        [ inner ]";
      lit "        get:"; lit "            int()";
      lit "    ";
      lit "        type T;";
      lit "    }"; [];
      lit "}"; [] ]).
Proof.
  assert (C : forall p s, sget ex_scopes p = Some s -> p = 0 \/ p = 1).
  { intros [|[|p]] s E; auto. cbn in E. destruct p; discriminate. }
  split; [|split; [|split; [|split; [cbv; lia|split; [reflexivity|vm_compute; reflexivity]]]]].
  - constructor.
    + eexists. split; reflexivity.
    + intros i s k j E K. destruct (C _ _ E); subst; cbn in E; injection E as <-; cbn in K; [|tauto].
      destruct K as [K|[]]. injection K as <- <-. split; [lia|]. eexists. repeat split; reflexivity.
    + intros j sj E Nj. destruct (C _ _ E); subst; [congruence|]. cbn in E. injection E as <-. exists 0. eexists. split; [reflexivity|]. split; [reflexivity|]. now left.
    + intros i s E. destruct (C _ _ E); subst; cbn in E; injection E as <-; cbn; repeat split; repeat constructor; cbn; tauto.
  - intros p s E n o f Ho Hf. destruct (C _ _ E); subst; cbn in E; injection E as <-; cbn in Ho; [tauto|]. destruct Ho as [Ho|[]]. injection Ho as <- <-.
    destruct Hf as [<-|[]]. repeat constructor.
  - intros p s E. assert (K : good_name (s_name s)).
    { destruct (C _ _ E); subst; cbn in E; injection E as <-; cbn [s_name]; (split; [apply no_nlb; reflexivity|split; apply last_not; discriminate]). }
    split; auto. clear K. destruct (C _ _ E); subst; cbn in E; injection E as <-.
    + split; [constructor|]. split; [|intros n o []]. intros n x [Hx|[]]. injection Hx as <- _. apply no_nlb. reflexivity.
    + split; [change (Forall word [lit "inner"]); constructor; [apply wordb_ok; reflexivity|constructor]|].
      split; [intros n x [Hx|[]]; injection Hx as <- _; apply no_nlb; reflexivity|].
      intros n o [Ho|[]]. injection Ho as <- _. split; [apply one_lineb_ok; reflexivity|constructor].
Qed.
