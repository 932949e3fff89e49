(* ProofDump4.v - scopes, and from heaps to summaries (C83). *)
From Coq Require String. Import String.StringSyntax.
From Coq Require Import Permutation Sorted.
From Verif Require Import Base Dec ModelCore ModelScope ModelDump SpecCore SpecScope PropPrint SpecDump ProofCore ProofDump ProofDump2 ProofDump3.

Inductive plain_ss : ssum -> Prop :=
| ps name tr os ts cs : good_name name -> Forall word tr -> Forall plain_os os -> Forall (fun x => ~ In 10%N x) ts ->
    (forall c, In c cs -> plain_ss c) -> plain_ss (SSum name tr os ts cs).
Definition decl (d : nat) (x : str) : line := At d (lit "type " ++ x ++ lit ";").
Fixpoint score (d : nat) (ss : ssum) : list line :=
  match ss with
  | SSum name tr os ts cs =>
    At d (lit "scope " ++ name) :: At d (lit "{") ::
    traits_lines (d + 1) tr ++ fns_lines (d + 1) os ++ map (decl (d + 1)) ts ++ concat (map (score (d + 1)) cs) ++ [At d (lit "}")]
  end.
Lemma decl_last x : last_c (lit "type " ++ x ++ lit ";") = 59%N.
Proof. rewrite app_assoc. apply last_app. Qed.
Lemma scope_last name : good_name name -> last_c (lit "scope " ++ name) <> 58%N /\ last_c (lit "scope " ++ name) <> 59%N.
Proof.
  intros (_ & A & B). destruct name as [|c n]; [split; intro E; vm_compute in E; discriminate|].
  assert (Hn : c :: n <> []) by discriminate. destruct (exists_last Hn) as (w & x & Hx). rewrite Hx in *. rewrite app_assoc, last_app.
  split; intros ->; [apply A|apply B]; exists w; reflexivity.
Qed.
Lemma decls_none d l p : (forall x, p (lit "type " ++ x ++ lit ";") = false) -> none_in (is d p) (map (decl d) l).
Proof. intro H. apply Forall_forall. intros x Hx. apply in_map_iff in Hx as (y & <- & _). unfold decl. now rewrite is_at. Qed.
Lemma scopes_starts d cs p B : (forall c, In c cs -> plain_ss c) -> (forall n, good_name n -> p (lit "scope " ++ n) = false) ->
  starts_not (is d p) B -> starts_not (is d p) (concat (map (score d) cs) ++ B).
Proof.
  intros Hc Hp S. destruct cs as [|c cs]; auto. assert (P : plain_ss c) by (apply Hc; now left). destruct P as [n tr os ts cs' Hn].
  cbn [map concat score app starts_not]. rewrite is_at. auto.
Qed.
Lemma decls_inj d l l' : map (decl d) l = map (decl d) l' -> l = l'.
Proof.
  revert l'. induction l as [|x l IH]; intros [|y l'] E; try discriminate; auto. cbn [map] in E.
  assert (E1 : decl d x = decl d y) by congruence. assert (E2 : map (decl d) l = map (decl d) l') by congruence.
  f_equal; auto. unfold decl in E1. injection E1 as E1. now apply app_inv_tail in E1.
Qed.
Lemma score_prefix : forall ss, plain_ss ss -> forall ss' d B B', plain_ss ss' -> score d ss ++ B = score d ss' ++ B' -> ss = ss' /\ B = B'.
Proof.
  induction 1 as [name tr os ts cs Hn Ht Ho Hts Hc IH]. intros [name' tr' os' ts' cs'] d B B' P' E.
  inversion P' as [? ? ? ? ? Hn' Ht' Ho' Hts' Hc']; subst.
  cbn [score app] in E. injection E as E1 E. subst name'. rewrite <- !app_assoc in E. cbn [app] in E.
  assert (End : forall q X, starts_not (is (d + 1) q) (At d (lit "}") :: X)) by (intros; cbn [starts_not]; apply is_other; lia).
  apply (span_eq (is (d + 1) (p_headf 91))) in E.
  2,3: match goal with |- all_in _ (traits_lines _ ?l) => destruct l; constructor; [rewrite is_at; apply traits_headf|constructor] end.
  2,3: apply fns_starts; [intro; apply headf_fnline|]; apply starts_app; [apply decls_none; reflexivity|]; apply scopes_starts; auto.
  destruct E as [E1 E]. apply traits_lines_inj in E1; auto. subst tr'.
  apply fns_prefix in E; auto.
  2,3: split; [|apply starts_app; [apply decls_none; intro; unfold p_fn; now rewrite decl_last|];
                apply scopes_starts; auto; intros n Gn; unfold p_fn; apply scope_last in Gn; apply N.eqb_neq; tauto].
  2,3: match goal with |- starts_not _ (map _ ?l ++ concat (map _ ?c) ++ _) => destruct l; [destruct c as [|c0 c]; [|destruct c0]|]; cbn [map concat score app starts_not]; apply is_other; lia end.
  destruct E as [-> E].
  apply (span_eq (is (d + 1) p_decl)) in E.
  2,3: apply Forall_forall; intros x Hx; apply in_map_iff in Hx as (y & <- & _); unfold decl; rewrite is_at; unfold p_decl; now rewrite decl_last.
  2,3: apply scopes_starts; auto; intros n Gn; unfold p_decl; apply scope_last in Gn; apply N.eqb_neq; tauto.
  destruct E as [E2 E]. apply decls_inj in E2. subst ts'.
  assert (K : cs = cs' /\ B = B'); [|destruct K as [-> ->]; auto].
  clear -IH E Hc'. revert cs' Hc' E. induction cs as [|c cs IHc]; intros [|c' cs'] Hc' E.
  - injection E as E. auto.
  - exfalso. destruct c'. cbn [map concat score app] in E. injection E as E _. lia.
  - exfalso. destruct c. cbn [map concat score app] in E. injection E as E _. lia.
  - cbn [map concat] in E. rewrite <- !app_assoc in E. apply IH in E as [-> E]; [|now left|apply Hc'; now left].
    destruct (IHc (fun c Hc => IH c (or_intror Hc)) cs') as [-> ->]; auto. intros; apply Hc'; now right.
Qed.
Lemma scope_visible : forall ss d, filter shown (scope_lines d ss) = score d ss.
Proof.
  fix IH 1. intros [name tr os ts cs] d. cbn [scope_lines score app filter shown lit]. do 2 f_equal. rewrite !filter_app, filter_sections by reflexivity.
  cbn [map concat]. rewrite shown_traits, shown_fns, app_nil_r, <- !app_assoc. do 2 f_equal. f_equal.
  - apply filter_all, forallb_forall. intros x Hx. apply in_map_iff in Hx as (g & <- & _). reflexivity.
  - f_equal. induction cs as [|c cs IHc]; [reflexivity|]. cbn [map concat]. rewrite !filter_app, IH, IHc. cbn [filter shown app]. now rewrite app_nil_r.
Qed.
Lemma good_scope : forall ss, plain_ss ss -> forall d, Forall good_line (scope_lines d ss).
Proof.
  induction 1 as [name tr os ts cs Hn Ht Ho Hts Hc IH]. intro d. cbn [scope_lines]. apply Forall_app. split; [|apply Forall_app; split; [|apply Forall_app; split]].
  - constructor; [|constructor; [apply good_brace|constructor]]. split; [|intros (z & E); discriminate]. cbn [good_line]. intro K.
    apply in_app_or in K as [K|K]; [cbn in K; intuition discriminate|]. now apply Hn in K.
  - now apply good_traits.
  - apply good_sections; [apply good_brace|]. repeat constructor.
    + now apply good_fns.
    + apply Forall_forall. intros x Hx. apply in_map_iff in Hx as (g & <- & Hg). split; [|intros (z & E); discriminate]. cbn [good_line]. intro K.
      apply in_app_or in K as [K|K]; [cbn in K; intuition discriminate|]. apply in_app_or in K as [K|[K|[]]]; [|discriminate].
      rewrite Forall_forall in Hts. now apply Hts in K.
    + clear -IH. induction cs as [|c cs IHc]; [constructor|]. cbn [map concat]. apply Forall_app. split; [|apply IHc; intros; apply IH; now right].
      apply Forall_app. split; [apply IH; now left|]. constructor; [exact Logic.I|constructor].
  - constructor; [apply good_brace|constructor].
Qed.
Lemma scope_lines_ne d ss : scope_lines d ss <> [].
Proof. destruct ss. discriminate. Qed.

(* ---- from heaps ---- *)
Lemma says_as D H a s : good_types D H -> arg_says H a s -> plain_as s.
Proof. intros G (t & E & ->). apply (G _ _ E). Qed.
Lemma says_gs D H f s : good_types D H -> fn_says H f s -> plain_gs s.
Proof.
  intros G [A B]. split; [eapply says_as; eauto|]. induction B; constructor; eauto using says_as.
Qed.
Lemma says_os D H traits l os : good_types D H -> (forall n o, In (n, o) l -> one_line n /\ Forall word (traits n)) ->
  Forall2 (fns_say H traits) l os -> Forall plain_os os.
Proof.
  intros G Hl F. induction F as [|[n o] s l os (A & B & C) F IH]; [constructor|]. constructor; [|apply IH; intros n0 o0 H0; apply (Hl n0 o0); now right].
  destruct (Hl n o (or_introl eq_refl)) as [L1 L2]. cbn [fst snd] in *. split; [now rewrite A|]. split; [now rewrite B|].
  clear -G C. induction C; constructor; eauto using says_gs.
Qed.
Scheme says_mut := Minimality for says Sort Prop with parent_says_mut := Minimality for parent_says Sort Prop.
Lemma says_plain D H T ts : good_types D H -> says D H T ts -> plain_ts ts.
Proof.
  intros G. revert T ts. apply (says_mut D H (fun T ts => plain_ts ts) (fun q p => forall x, p = Some x -> plain_ts x)); try (intros; congruence).
  - intros T t fl p fs os E Pp IH [B1 B2] Hf Ho. destruct (G _ _ E) as (G1 & G2 & G3 & G4). constructor; auto.
    + assert (K : forall f, In f fl -> word (fd_name f) /\ Forall word (fd_traits f)).
      { intros f Hin. eapply Permutation_in in Hin; [|exact B1]. apply in_map_iff in Hin as ([k g] & <- & Hin). apply (G3 k g Hin). }
      clear -G Hf K. induction Hf as [|f s fl fs (t & E & ->) Hf IH]; constructor.
      * destruct (K f (or_introl eq_refl)). split; [auto|]. split; [auto|]. cbn. apply (G _ _ E).
      * apply IH. intros; apply K; now right.
    + eapply says_os; eauto.
Qed.
Scheme scope_says_mut := Minimality for scope_says Sort Prop with scopes_say_mut := Minimality for scopes_say Sort Prop.
Lemma scope_says_plain D H S p ss : good_types D H -> good_scopes D S -> scope_says D H S p ss -> plain_ss ss.
Proof.
  intros G GS. revert p ss. apply (scope_says_mut D H S (fun p ss => plain_ss ss) (fun l cs => forall c, In c cs -> plain_ss c)).
  - intros p s os cs E Ho _ IH. destruct (GS _ _ E) as (G1 & G2 & G3 & G4). constructor; auto.
    + eapply says_os; eauto.
    + apply Forall_forall. intros x Hx. apply in_map_iff in Hx as ([n y] & <- & Hx). eapply G3; eauto.
  - intros c [].
  - intros k q l c cs _ Hc _ IH c' [<-|H0]; auto.
Qed.
