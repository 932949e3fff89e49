(* ProofDump3.v - the layouts of SpecDump are unambiguous (C83). *)
From Coq Require String. Import String.StringSyntax.
From Coq Require Import Permutation Sorted.
From Verif Require Import Base Dec ModelCore ModelScope ModelDump SpecCore SpecScope PropPrint SpecDump ProofCore ProofDump ProofDump2.

(* ---- texts and lines ---- *)
Lemma lines_of_app x r : ~ In 10%N x -> lines_of (x ++ 10%N :: r) = x :: lines_of r.
Proof.
  induction x as [|c x IH]; intro Hx; [reflexivity|]. cbn [app lines_of]. destruct (N.eqb_spec c 10).
  - exfalso. apply Hx. now left.
  - rewrite IH; [reflexivity|]. intro K. apply Hx. now right.
Qed.
Lemma lines_of_one x : ~ In 10%N x -> lines_of x = [x].
Proof.
  induction x as [|c x IH]; intro Hx; [reflexivity|]. cbn [lines_of]. destruct (N.eqb_spec c 10).
  - exfalso. apply Hx. now left.
  - rewrite IH; [reflexivity|]. intro K. apply Hx. now right.
Qed.
Lemma lines_joined : forall ls, ls <> [] -> Forall (fun s => ~ In 10%N s) ls -> lines_of (joined ls) = ls.
Proof.
  induction ls as [|x [|y ls] IH]; intros Hn Hl; [congruence| |].
  - inversion Hl; subst. now apply lines_of_one.
  - inversion Hl as [|? ? A B]; subst. change (joined (x :: y :: ls)) with (x ++ 10%N :: joined (y :: ls)).
    rewrite lines_of_app by assumption. rewrite IH; auto. discriminate.
Qed.
Definition shown (l : line) : bool := match l with At _ (_ :: _) => true | _ => false end.
Definition good_line (l : line) : Prop := match l with At _ s => one_line s | Gap => True end.
Lemma in_pad c n : In c (repeat 32%N n) -> c = 32%N.
Proof. apply repeat_spec. Qed.
Lemma line_no_nl n l : good_line l -> ~ In 10%N (line_text n l).
Proof.
  destruct l as [d s|]; cbn; [|tauto]. intros [A _] K. apply in_app_or in K as [K|K]; [|tauto]. apply in_pad in K. discriminate.
Qed.
Lemma blank_line n l : good_line l -> blank (line_text n l) = negb (shown l).
Proof.
  destruct l as [d s|]; cbn [good_line line_text shown]; [|reflexivity]. intros [_ A]. unfold blank. rewrite forallb_app.
  assert (E : forallb (N.eqb 32) (repeat 32%N (n + 4 * d)) = true).
  { apply forallb_forall. intros c Hc. apply in_pad in Hc. subst. reflexivity. }
  rewrite E. destruct s as [|c s]; [reflexivity|]. cbn [andb forallb negb]. destruct (N.eqb_spec 32 c); [|reflexivity]. subst. exfalso. apply A. now exists s.
Qed.
Lemma filter_map_swap {A B} (f : A -> B) (p : B -> bool) (q : A -> bool) l : (forall x, In x l -> p (f x) = q x) -> filter p (map f l) = map f (filter q l).
Proof.
  induction l as [|x l IH]; intro H; [reflexivity|]. cbn [map filter]. rewrite (H x) by now left. rewrite IH by (intros; apply H; now right). destruct (q x); reflexivity.
Qed.
Lemma visible_lines n ls : ls <> [] -> Forall good_line ls ->
  visible (joined (map (line_text n) ls)) = map (line_text n) (filter shown ls).
Proof.
  intros Hn Hl. unfold visible. rewrite lines_joined.
  - apply filter_map_swap. intros l Hin. rewrite Forall_forall in Hl. rewrite blank_line by auto. now rewrite negb_involutive.
  - destruct ls; [congruence|discriminate].
  - apply Forall_forall. intros s Hs. apply in_map_iff in Hs as (l & <- & Hin). rewrite Forall_forall in Hl. apply line_no_nl; auto.
Qed.
Lemma pad_inj a b s s' : s <> [] -> s' <> [] -> ~ starts_with 32%N s -> ~ starts_with 32%N s' -> repeat 32%N a ++ s = repeat 32%N b ++ s' -> a = b /\ s = s'.
Proof.
  revert b. induction a as [|a IH]; intros [|b] A B A' B' E; cbn [repeat app] in E; auto.
  - exfalso. apply A'. rewrite E. eexists; reflexivity.
  - exfalso. apply B'. rewrite <- E. eexists; reflexivity.
  - injection E as E. apply IH in E as [-> ->]; auto.
Qed.
Lemma line_text_inj n : forall ls ls', Forall good_line ls -> Forall good_line ls' -> forallb shown ls = true -> forallb shown ls' = true ->
  map (line_text n) ls = map (line_text n) ls' -> ls = ls'.
Proof.
  induction ls as [|l ls IH]; intros [|l' ls'] G G' S S' E; try discriminate; auto. cbn [map] in E. injection E as E1 E2.
  inversion G as [|? ? A B]; inversion G' as [|? ? A' B']; subst. cbn [forallb] in S, S'. apply andb_prop in S as [S1 S2]. apply andb_prop in S' as [S1' S2'].
  f_equal; [|now apply IH]. destruct l as [d [|c s]|], l' as [d' [|c' s']|]; try discriminate. cbn [line_text] in E1.
  apply pad_inj in E1 as [E3 ->]; try discriminate; [|apply A|apply A']. f_equal. lia.
Qed.
Lemma filter_shown ls : forallb shown (filter shown ls) = true.
Proof. induction ls as [|l ls IH]; [reflexivity|]. cbn [filter]. destruct (shown l) eqn:E; cbn [forallb]; auto. now rewrite E. Qed.
Lemma Forall_filter {A} (P : A -> Prop) f l : Forall P l -> Forall P (filter f l).
Proof. intro H. induction H; cbn; auto. destruct (f x); auto. Qed.
Lemma texts_inj n ls ls' : ls <> [] -> ls' <> [] -> Forall good_line ls -> Forall good_line ls' ->
  joined (map (line_text n) ls) = joined (map (line_text n) ls') -> filter shown ls = filter shown ls'.
Proof.
  intros N N' G G' E. apply (f_equal visible) in E. rewrite !visible_lines in E by assumption.
  apply line_text_inj in E; auto using Forall_filter, filter_shown.
Qed.

(* ---- kinds of lines ---- *)
Definition last_c (s : str) : N := hd 0%N (rev s).
Definition head_c (s : str) : N := hd 0%N s.
Lemma last_app s c : last_c (s ++ [c]) = c.
Proof. unfold last_c. now rewrite rev_app_distr. Qed.
Lemma last_ends s c : last_c s = c -> c <> 0%N -> ends_with [c] s.
Proof.
  unfold last_c. intros E N0. destruct (rev s) as [|x r] eqn:Er; cbn in E; [congruence|]. subst x. exists (rev r).
  apply (f_equal (@rev N)) in Er. rewrite rev_involutive in Er. exact Er.
Qed.
Definition is (d : nat) (p : str -> bool) (l : line) : bool := match l with At d' s => Nat.eqb d' d && p s | Gap => false end.
Definition any : str -> bool := fun _ => true.
Definition p_fn (s : str) : bool := N.eqb (last_c s) 58.
Definition p_decl (s : str) : bool := N.eqb (last_c s) 59.
Definition p_head (c : N) (s : str) : bool := N.eqb (head_c s) c && negb (p_fn s) && negb (p_decl s).
Definition p_headf (c : N) (s : str) : bool := N.eqb (head_c s) c && negb (p_fn s).

Definition all_in (P : line -> bool) (A : list line) : Prop := Forall (fun l => P l = true) A.
Definition none_in (P : line -> bool) (A : list line) : Prop := Forall (fun l => P l = false) A.
Definition starts_not (P : line -> bool) (B : list line) : Prop := match B with [] => True | x :: _ => P x = false end.
Lemma starts_app P A B : none_in P A -> starts_not P B -> starts_not P (A ++ B).
Proof. destruct 1; auto. Qed.
Lemma span_eq P : forall A A' B B', all_in P A -> all_in P A' -> starts_not P B -> starts_not P B' -> A ++ B = A' ++ B' -> A = A' /\ B = B'.
Proof.
  induction A as [|x A IH]; intros [|y A'] B B' H H' S S' E; cbn [app] in E; auto.
  - subst B. inversion H'; subst. cbn in S. congruence.
  - subst B'. inversion H; subst. cbn in S'. congruence.
  - injection E as -> E. inversion H; inversion H'; subst. destruct (IH A' B B') as [-> ->]; auto.
Qed.
Lemma map_At_inj {X} (f : X -> str) (Q : X -> Prop) d : (forall x y, Q x -> Q y -> f x = f y -> x = y) ->
  forall l l', Forall Q l -> Forall Q l' -> map (fun x => At d (f x)) l = map (fun x => At d (f x)) l' -> l = l'.
Proof.
  intro Hf. induction l as [|x l IH]; intros [|y l'] H H' E; try discriminate; auto. cbn [map] in E. injection E as E1 E2.
  inversion H; inversion H'; subst. f_equal; auto.
Qed.
Lemma is_at d p s : is d p (At d s) = p s.
Proof. cbn. now rewrite Nat.eqb_refl. Qed.
Lemma is_other d d' p s : d' <> d -> is d p (At d' s) = false.
Proof. intro N. cbn. destruct (Nat.eqb_spec d' d); [congruence|reflexivity]. Qed.

Lemma traits_head l : head_c (traits_text l) = 91%N.
Proof. reflexivity. Qed.
Lemma traits_last l : last_c (traits_text l) = 93%N.
Proof. unfold traits_text. rewrite app_assoc. apply last_app. Qed.
Lemma fn_last n : last_c (n ++ lit ":") = 58%N.
Proof. apply last_app. Qed.
Lemma sig_head g : plain_gs g -> head_c (sig_text g) <> 91%N.
Proof.
  intros [(A & _ & B & _) _]. unfold sig_text, arg_text. destruct (as_type (gs_ret g)) as [|c i] eqn:E; [exfalso; apply (pid_nonempty _ A); first [reflexivity|exact E]|].
  cbn. intros ->. apply B. now exists i.
Qed.
Lemma traits_lines_inj d l l' : Forall word l -> Forall word l' -> traits_lines d l = traits_lines d l' -> l = l'.
Proof. intros A B E. destruct l, l'; try discriminate; auto. apply (f_equal (fun l => match l with [At _ s] => s | _ => [] end)) in E. apply traits_text_inj in E; auto. Qed.

(* ---- functions ---- *)
Definition plain_os (o : osum) : Prop := one_line (os_name o) /\ Forall word (os_traits o) /\ Forall plain_gs (os_sigs o).
Definition stop (d : nat) (B : list line) : Prop := starts_not (is (d + 1) any) B /\ starts_not (is d p_fn) B.
Lemma fns_lines_cons d o os : fns_lines d (o :: os) = At d (os_name o ++ lit ":") :: (traits_lines (d + 1) (os_traits o) ++ map (fun g => At (d + 1) (sig_text g)) (os_sigs o)) ++ fns_lines d os.
Proof. reflexivity. Qed.
Lemma fns_not_deep d os B : starts_not (is (d + 1) any) B -> starts_not (is (d + 1) any) (fns_lines d os ++ B).
Proof. destruct os as [|o os]; auto. intros _. rewrite fns_lines_cons. cbn [app starts_not]. apply is_other. lia. Qed.
Lemma fns_prefix d : forall os os' B B', Forall plain_os os -> Forall plain_os os' -> stop d B -> stop d B' ->
  fns_lines d os ++ B = fns_lines d os' ++ B' -> os = os' /\ B = B'.
Proof.
  induction os as [|o os IH]; intros [|o' os'] B B' H H' [S1 S2] [S1' S2'] E.
  - auto.
  - exfalso. rewrite fns_lines_cons in E. cbn [app] in E. change (fns_lines d [] ++ B) with B in E. subst B. cbn [starts_not] in S2. rewrite is_at in S2.
    unfold p_fn in S2. rewrite fn_last in S2. discriminate.
  - exfalso. rewrite fns_lines_cons in E. cbn [app] in E. change (fns_lines d [] ++ B') with B' in E. subst B'. cbn [starts_not] in S2'. rewrite is_at in S2'.
    unfold p_fn in S2'. rewrite fn_last in S2'. discriminate.
  - rewrite !fns_lines_cons in E. cbn [app] in E. injection E as E1 E2. apply app_inv_tail in E1.
    inversion H as [|? ? (A1 & A2 & A3) HH]; inversion H' as [|? ? (A1' & A2' & A3') HH']; subst.
    rewrite <- (app_assoc (traits_lines _ _ ++ _)) in E2. rewrite <- (app_assoc (traits_lines (d + 1) (os_traits o') ++ _)) in E2.
    assert (D : forall l g, all_in (is (d + 1) any) (traits_lines (d + 1) l ++ map (fun g => At (d + 1) (sig_text g)) g)).
    { intros l g. apply Forall_app. split.
      - destruct l; repeat constructor. apply is_at.
      - apply Forall_forall. intros x Hx. apply in_map_iff in Hx as (y & <- & _). apply is_at. }
    apply (span_eq (is (d + 1) any)) in E2; auto using fns_not_deep. destruct E2 as [E2 E3].
    apply IH in E3 as [-> ->]; auto; [|split; assumption..]. split; auto. f_equal.
    rewrite <- (app_nil_r (traits_lines _ (os_traits o) ++ _)), <- (app_nil_r (traits_lines _ (os_traits o') ++ _)), <- !app_assoc in E2.
    assert (T : forall l, all_in (is (d + 1) (p_headf 91)) (traits_lines (d + 1) l)).
    { intros l. destruct l; constructor; [|constructor]. rewrite is_at. unfold p_headf, p_fn. rewrite traits_head, traits_last. reflexivity. }
    assert (G : forall l, Forall plain_gs l -> starts_not (is (d + 1) (p_headf 91)) (map (fun g => At (d + 1) (sig_text g)) l ++ [])).
    { intros l Hl. destruct Hl as [|g l Hg Hl]; [exact Logic.I|]. cbn [map app starts_not]. rewrite is_at. unfold p_headf. apply sig_head in Hg.
      destruct (N.eqb_spec (head_c (sig_text g)) 91); [contradiction|reflexivity]. }
    apply (span_eq (is (d + 1) (p_headf 91))) in E2; auto. destruct E2 as [E4 E5]. rewrite !app_nil_r in E5.
    apply traits_lines_inj in E4; auto. apply (map_At_inj sig_text plain_gs) in E5; auto using sig_text_inj. destruct o, o'. cbn in *. congruence.
Qed.

(* ---- types ---- *)
Inductive plain_ts : tsum -> Prop :=
| pt id p tr fs os : good_id id -> (forall ps, p = Some ps -> plain_ts ps) -> Forall word tr -> Forall plain_fs fs -> Forall plain_os os ->
    plain_ts (TSum id p tr fs os).
Fixpoint tcore (d : nat) (ts : tsum) : list line :=
  match ts with
  | TSum id p tr fs os =>
    At d (lit "type " ++ id) :: At d (lit "{") ::
    match p with Some ps => tcore (d + 1) ps | None => [] end ++ traits_lines (d + 1) tr ++
    map (fun f => At (d + 1) (field_text f)) fs ++ fns_lines (d + 1) os ++ [At d (lit "}")]
  end.

Lemma type_head id : good_id id -> p_headf 116 (lit "type " ++ id) = true.
Proof.
  intros (A & _ & _ & B). unfold p_headf. change (head_c (lit "type " ++ id)) with 116%N. rewrite N.eqb_refl. cbn [andb]. unfold p_fn.
  destruct (N.eqb_spec (last_c (lit "type " ++ id)) 58) as [E|]; [|reflexivity]. exfalso. apply B.
  destruct (exists_last (pid_nonempty _ A)) as (w & c & ->). rewrite app_assoc, last_app in E. subst. exists w. reflexivity.
Qed.
Lemma last_word x w : word w -> last_c (x ++ w) <> 58%N.
Proof.
  intros [A B]. destruct (exists_last A) as (v & c & ->). rewrite app_assoc, last_app. intros ->.
  destruct (B 58%N) as (_ & _ & K & _); [apply in_or_app; right; now left|]. congruence.
Qed.
Lemma field_headf f : plain_fs f -> p_headf 48 (field_text f) = true.
Proof.
  intros (A & B & _). unfold p_headf. change (head_c (field_text f)) with 48%N. rewrite N.eqb_refl. cbn [andb]. unfold p_fn.
  destruct (N.eqb_spec (last_c (field_text f)) 58) as [E|]; [|reflexivity]. exfalso. revert E. unfold field_text. destruct (fs_traits f) as [|w l].
  - rewrite app_nil_r, !app_assoc. now apply last_word.
  - rewrite !app_assoc. unfold traits_text. rewrite !app_assoc. change (lit "]") with [93%N]. rewrite last_app. discriminate.
Qed.
Lemma headf_other c c' s : c <> c' -> p_headf c s = true -> p_headf c' s = false.
Proof. intros N E. unfold p_headf in *. apply andb_prop in E as [E1 _]. apply N.eqb_eq in E1. rewrite E1. destruct (N.eqb_spec c c'); [contradiction|reflexivity]. Qed.
Lemma headf_fn c s : p_headf c s = true -> p_fn s = false.
Proof. intro E. unfold p_headf in E. apply andb_prop in E as [_ E]. now apply negb_true_iff in E. Qed.
Lemma traits_headf l : p_headf 91 (traits_text l) = true.
Proof. unfold p_headf, p_fn. now rewrite traits_head, traits_last. Qed.
Lemma traits_none d l p : (forall l, p (traits_text l) = false) -> none_in (is d p) (traits_lines d l).
Proof. intro H. destruct l; constructor; [|constructor]. now rewrite is_at. Qed.
Lemma fields_none d l p : Forall plain_fs l -> (forall f, plain_fs f -> p (field_text f) = false) -> none_in (is d p) (map (fun f => At d (field_text f)) l).
Proof. intros Hl H. apply Forall_forall. intros x Hx. apply in_map_iff in Hx as (f & <- & Hf). rewrite is_at. apply H. rewrite Forall_forall in Hl. auto. Qed.
Lemma fns_starts d os p B : (forall n, p (n ++ lit ":") = false) -> starts_not (is d p) B -> starts_not (is d p) (fns_lines d os ++ B).
Proof. intros H S. destruct os as [|o os]; auto. rewrite fns_lines_cons. cbn [app starts_not]. now rewrite is_at. Qed.
Lemma headf_fnline c n : p_headf c (n ++ lit ":") = false.
Proof. unfold p_headf, p_fn. rewrite fn_last. now rewrite andb_false_r. Qed.

Lemma tcore_prefix : forall ts, plain_ts ts -> forall ts' d B B', plain_ts ts' -> tcore d ts ++ B = tcore d ts' ++ B' -> ts = ts' /\ B = B'.
Proof.
  fix IH 1. intros [id p tr fs os] P [id' p' tr' fs' os'] d B B' P' E.
  inversion P as [? ? ? ? ? Hi Hp Ht Hf Ho]; inversion P' as [? ? ? ? ? Hi' Hp' Ht' Hf' Ho']; subst.
  cbn [tcore app] in E. injection E as E1 E. subst id'. rewrite <- !app_assoc in E. cbn [app] in E.
  assert (End : forall q X, starts_not (is (d + 1) q) (At d (lit "}") :: X)) by (intros; cbn [starts_not]; apply is_other; lia).
  assert (R : forall tr fs os X, Forall plain_fs fs -> starts_not (is (d + 1) (p_headf 116))
    (traits_lines (d + 1) tr ++ map (fun f => At (d + 1) (field_text f)) fs ++ fns_lines (d + 1) os ++ At d (lit "}") :: X)).
  { intros. apply starts_app; [apply traits_none; intro; apply (headf_other 91); [discriminate|apply traits_headf]|].
    apply starts_app; [apply fields_none; [assumption|intros; apply (headf_other 48); [discriminate|apply field_headf; assumption]]|].
    apply fns_starts; auto. intro. apply headf_fnline. }
  assert (TH : forall ps X, plain_ts ps -> starts_not (is (d + 1) (p_headf 116)) (tcore (d + 1) ps ++ X) -> False).
  { intros ps X Hps S. inversion Hps as [? ? ? ? ? Hg]; subst. cbn [tcore app starts_not] in S. rewrite is_at, type_head in S by assumption. discriminate. }
  assert (Q : p = p' /\ traits_lines (d + 1) tr ++ map (fun f => At (d + 1) (field_text f)) fs ++ fns_lines (d + 1) os ++ At d (lit "}") :: B =
    traits_lines (d + 1) tr' ++ map (fun f => At (d + 1) (field_text f)) fs' ++ fns_lines (d + 1) os' ++ At d (lit "}") :: B').
  { destruct p as [ps|], p' as [ps'|].
    - apply IH in E as [-> E]; auto.
    - exfalso. cbn [app] in E. eapply TH; [apply Hp; reflexivity|]. rewrite E. apply R. assumption.
    - exfalso. cbn [app] in E. eapply TH; [apply Hp'; reflexivity|]. rewrite <- E. apply R. assumption.
    - auto. }
  destruct Q as [<- Q]. clear IH E R TH.
  apply (span_eq (is (d + 1) (p_headf 91))) in Q.
  2,3: match goal with |- all_in _ (traits_lines _ ?l) => destruct l; constructor; [rewrite is_at; apply traits_headf|constructor] end.
  2,3: apply starts_app; [apply fields_none; [assumption|intros; apply (headf_other 48); [discriminate|apply field_headf; assumption]]|]; apply fns_starts; auto; intro; apply headf_fnline.
  destruct Q as [Q1 Q]. apply traits_lines_inj in Q1; auto.
  apply (span_eq (is (d + 1) (p_headf 48))) in Q.
  2,3: apply Forall_forall; intros x Hx; apply in_map_iff in Hx as (f & <- & Hx); rewrite is_at; apply field_headf; eapply Forall_forall; [|exact Hx]; assumption.
  2,3: apply fns_starts; auto; intro; apply headf_fnline.
  destruct Q as [Q2 Q]. apply (map_At_inj field_text plain_fs) in Q2; auto using field_text_inj.
  apply fns_prefix in Q; auto. 2,3: split; [cbn [starts_not]; apply is_other; lia|apply End].
  destruct Q as [-> Q]. injection Q as ->. subst. auto.
Qed.

(* ---- the visible lines of a type ---- *)
Lemma filter_sections gap l : shown gap = false -> filter shown (sections gap l) = concat (map (filter shown) l).
Proof.
  intro G. induction l as [|x l IH]; [reflexivity|]. cbn [sections map concat]. rewrite <- IH. clear IH.
  destruct x as [|x0 x]; [reflexivity|]. destruct (sections gap l) as [|y r]; [now rewrite app_nil_r|].
  rewrite filter_app. cbn [filter]. now rewrite G.
Qed.
Lemma filter_all {A} (f : A -> bool) l : forallb f l = true -> filter f l = l.
Proof. induction l as [|x l IH]; cbn; [auto|]. intro E. apply andb_prop in E as [-> E]. now rewrite IH. Qed.
Lemma shown_traits d l : filter shown (traits_lines d l) = traits_lines d l.
Proof. destruct l; reflexivity. Qed.
Lemma shown_app d s c : shown (At d (s ++ [c])) = true.
Proof. destruct s; reflexivity. Qed.
Lemma shown_sig d g : shown (At d (sig_text g)) = true.
Proof. unfold sig_text. rewrite !app_assoc. apply shown_app. Qed.
Lemma shown_fns d l : filter shown (fns_lines d l) = fns_lines d l.
Proof.
  induction l as [|o l IH]; [reflexivity|]. rewrite fns_lines_cons. cbn [filter]. rewrite (shown_app d (os_name o) 58%N : shown (At d (os_name o ++ lit ":")) = true). rewrite !filter_app, IH, shown_traits. do 3 f_equal.
  apply filter_all, forallb_forall. intros x Hx. apply in_map_iff in Hx as (g & <- & _). apply shown_sig.
Qed.
Lemma type_visible : forall ts d, filter shown (type_lines d ts) = tcore d ts.
Proof.
  fix IH 1. intros [id p tr fs os] d. cbn [type_lines tcore app filter shown lit]. do 2 f_equal. rewrite filter_app, filter_sections by reflexivity.
  cbn [map concat]. rewrite shown_traits, shown_fns, app_nil_r, <- !app_assoc. f_equal.
  - destruct p as [ps|]; [apply IH|reflexivity].
  - do 2 f_equal. apply filter_all, forallb_forall. intros x Hx. apply in_map_iff in Hx as (g & <- & _). reflexivity.
Qed.
Lemma good_traits d l : Forall word l -> Forall good_line (traits_lines d l).
Proof.
  intro H. destruct l; constructor; [|constructor]. split; [|intros (z & E); discriminate].
  cbn [good_line]. intro K. unfold traits_text in K. apply in_app_or in K as [K|K]; [destruct K as [K|[K|[]]]; discriminate|].
  apply words_no in K; auto.
Qed.
Lemma arg_no_nl a : plain_as a -> ~ In 10%N (arg_text a).
Proof.
  intros (_ & [A _] & _) K. rewrite arg_text_suffix in K. apply in_app_or in K as [K|K]; [tauto|].
  unfold suffix_of in K. destruct (a_const (as_arg a)), (a_ref (as_arg a)); cbn in K; intuition discriminate.
Qed.
Lemma good_sig g : plain_gs g -> one_line (sig_text g).
Proof.
  intros [A B]. split.
  - intro K. unfold sig_text in K. apply in_app_or in K as [K|K]; [now apply arg_no_nl in K|].
    apply in_app_or in K as [[K|[]]|K]; [discriminate|]. apply in_app_or in K as [K|[K|[]]]; [|discriminate].
    revert K. induction B as [|a l Ha B IH]; [intros []|]. destruct l as [|b l]; [now apply arg_no_nl|].
    cbn [map comma_list]. intro K. apply in_app_or in K as [K|K]; [now apply arg_no_nl in K|]. apply in_app_or in K as [[K|[K|[]]]|K]; try discriminate. now apply IH.
  - destruct A as (A & [_ N] & _). unfold sig_text, arg_text. destruct (as_type (gs_ret g)) as [|c i] eqn:E; [exfalso; apply (pid_nonempty _ A); first [reflexivity|exact E]|].
    intros (z & K). cbn in K. injection K as -> _. apply N. now exists i.
Qed.
Lemma good_fns d l : Forall plain_os l -> Forall good_line (fns_lines d l).
Proof.
  induction 1 as [|o l (A & B & C) H IH]; [constructor|]. rewrite fns_lines_cons. constructor; [|apply Forall_app; split; [apply Forall_app; split|auto]].
  - split.
    + cbn [good_line]. intro K. apply in_app_or in K as [K|[K|[]]]; [now apply A in K|discriminate].
    + intros (z & K). destruct (os_name o) as [|c n]; [discriminate|]. cbn in K. injection K as -> _. apply (proj2 A). now exists n.
  - now apply good_traits.
  - apply Forall_forall. intros x Hx. apply in_map_iff in Hx as (g & <- & Hg). rewrite Forall_forall in C. now apply good_sig, C.
Qed.
Lemma good_sections gap l : good_line gap -> Forall (Forall good_line) l -> Forall good_line (sections gap l).
Proof.
  intros G. induction 1 as [|x l Hx H IH]; [constructor|]. cbn [sections]. destruct x as [|x0 x]; auto. destruct (sections gap l); auto.
  apply Forall_app. split; auto.
Qed.
Lemma good_field f : plain_fs f -> one_line (field_text f).
Proof.
  intros (A & B & C). split; [|intros (z & E); discriminate]. intro K. unfold field_text in K.
  repeat (apply in_app_or in K as [K|K]); try (cbn in K; intuition discriminate; fail).
  - apply hex_chars in K. lia.
  - now apply (proj2 A) in K.
  - assert (W : ~ In 10%N (traits_text (fs_traits f))).
    { unfold traits_text. intro J. apply in_app_or in J as [[J|[J|[]]]|J]; try discriminate. apply words_no in J; auto. }
    destruct (fs_traits f); [exact K|]. apply in_app_or in K as [[K|[]]|K]; [discriminate|contradiction].
Qed.
Lemma good_at d s : (forall c, In c s -> c <> 10%N) -> ~ starts_with 32%N s -> good_line (At d s).
Proof. intros A B. split; auto. intro K. now apply A in K. Qed.
Lemma good_brace d : good_line (At d (lit "{")) /\ good_line (At d (lit "}")) /\ good_line (At d []).
Proof. repeat split; try (intros (z & E); discriminate); cbn; intuition discriminate. Qed.
Lemma good_type : forall ts, plain_ts ts -> forall d, Forall good_line (type_lines d ts).
Proof.
  fix IH 2. intros ts [id p tr fs os (A & [A1 A2] & _) Hp Ht Hf Ho] d. cbn [type_lines]. apply Forall_app. split; [|apply Forall_app; split].
  - constructor; [|constructor; [apply good_brace|constructor]]. split; [|intros (z & E); discriminate]. cbn [good_line]. intro K. apply in_app_or in K as [K|K]; [|tauto]. cbn in K. intuition discriminate.
  - apply good_sections; [apply good_brace|]. repeat constructor.
    + destruct p as [ps|]; [|constructor]. apply IH. now apply Hp.
    + now apply good_traits.
    + apply Forall_forall. intros x Hx. apply in_map_iff in Hx as (g & <- & Hg). rewrite Forall_forall in Hf. now apply good_field, Hf.
    + now apply good_fns.
  - constructor; [apply good_brace|constructor].
Qed.
Lemma type_lines_ne d ts : type_lines d ts <> [].
Proof. destruct ts. discriminate. Qed.
