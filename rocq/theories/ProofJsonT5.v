(* ProofJsonT5.v - print_text, the document of a value, and reading it back. *)
From Coq Require String. Import String.StringSyntax.
From Verif Require Import Base Dec ModelJson ModelJsonW ModelJsonT SpecJson SpecJsonT ProofJson1 ProofJson2 ProofJson3 ProofJson4 ProofJson5 ProofJson6 ProofJson7 ProofJson8 ProofJson9 ProofJson10 ProofJsonT1 ProofJsonT2 ProofJsonT3 ProofJsonT4 PropJsonStr PropJsonTok.
From Coq Require Import Permutation.
Local Open Scope outcome_scope.

(* ---- initialising the printers ---- *)
Lemma init_printer_good e : forall fuel t c, fresh e c < fuel -> init_ok c (init_printer fuel e t c).
Proof.
  induction fuel as [|f IH]; intros t c Hl; [lia|]. cbn [init_printer].
  destruct (existsb (Nat.eqb t) c) eqn:Ec.
  { split; [discriminate|]. intros c' H. injection H as <-. apply incl_refl. }
  cbv zeta. destruct (nth_error e t) as [jt|] eqn:Et; [|split; discriminate].
  assert (Hfr : fresh e (t :: c) < f).
  { assert (fresh e (t :: c) < fresh e c) by (apply fresh_cons; [congruence|exact Ec]). lia. }
  assert (Hone : forall i, init_ok c (init_printer f e i (t :: c))).
  { intro i. destruct (IH i (t :: c) Hfr) as [I1 I2]. split; [exact I1|]. intros c' H.
    specialize (I2 _ H). intros x Hx. apply I2. now right. }
  assert (Hleaf : init_ok c (Ok (t :: c))).
  { split; [discriminate|]. intros c' H. injection H as <-. intros x Hx. now right. }
  destruct jt; auto; [split; discriminate|].
  destruct (init_fold e (fun fd c => init_printer f e (f_type fd) c) f) with (l := obj_fields fs) (c0 := t :: c) (x := Ok (t :: c)) as [I1 I2].
  - intros b c' Hc'. apply IH. exact Hc'.
  - intros c' H. injection H as <-. apply incl_refl.
  - discriminate.
  - exact Hfr.
  - split; [exact I1|]. intros c' H. specialize (I2 _ H). intros x Hx. apply I2. now right.
Qed.
Lemma init_printer_fine e : env_ok e -> no_void e -> forall fuel t c, t < length e -> fine_init (init_printer fuel e t c).
Proof.
  intros He Hv. induction fuel as [|f IH]; intros t c Ht; [now left|]. cbn [init_printer].
  destruct (existsb _ c); [right; eauto|].
  destruct (nth_error e t) as [d|] eqn:E; [|apply nth_error_None in E; lia].
  destruct (He t d E) as [Hn Hr].
  destruct d; try (right; eauto; fail); try (apply IH; apply Hr; now left); [destruct (Hv t E)|].
  cbn in Hr. fold (obj_fields fs) in Hr.
  apply fine_fold; [|right; eauto]. intros fd c' Hf. apply IH. apply Hr. now apply in_map.
Qed.
Lemma init_printer_steps e t : env_ok e -> no_void e -> t < length e ->
  exists n, forall fuel, n <= fuel -> exists c, init_printer fuel e t [] = Ok c.
Proof.
  intros He Hv Ht. exists (S (length e)). intros fuel Hf.
  destruct (init_printer_fine e He Hv fuel t [] Ht) as [E|E]; auto.
  destruct (init_printer_good e fuel t []) as [H _]; [rewrite fresh_nil; lia|contradiction].
Qed.

(* ---- the printed text ---- *)
Lemma tx_whole d j x : tx d (is_number j) (toks j) x -> whole_text d j x [].
Proof.
  intro H. assert (D : is_number j \/ ~ is_number j) by (destruct j; cbn; tauto). destruct D as [D|D].
  - assert (Et : toks j = [ntok j]) by (destruct j; try contradiction; reflexivity). rewrite Et in H.
    specialize (H (lit ",") [] (lit ",")). rewrite app_nil_r in H.
    assert (L : lexes d (x ++ lit ",") [ntok j] (lit ",")).
    { apply H; [|constructor]. intros _. exists 44%N, []. split; [reflexivity|]. unfold digit_char. repeat split; try discriminate. lia. }
    inversion L as [|w t y s ts rest Hw Hy Hn Hl]; subst. inversion Hl; subst.
    rewrite app_assoc in H0. apply app_inv_tail in H0. subst x. now apply wt_num.
  - apply wt_more. unfold json_text. specialize (H [] [] []). rewrite !app_nil_r in H. apply H; [tauto|constructor].
Qed.


(* ---- more fuel does not change what is printed ---- *)
Definition mono {A B} (f g : A -> outcome B) : Prop := forall a b, f a = Ok b -> g a = Ok b.
Lemma parray_mono pf pg : (forall i, mono (pf i) (pg i)) -> forall k first i, mono (parray_loop first i k pf) (parray_loop first i k pg).
Proof.
  intro H. induction k as [|k IH]; intros first i w b E; cbn [parray_loop] in *; auto.
  destruct (negb (wok w)); auto. apply bind_ok in E as (w1 & E1 & E). rewrite E1. cbn [bind].
  apply bind_ok in E as (w2 & E2 & E). rewrite (H _ _ _ E2). cbn [bind]. now apply IH.
Qed.
Lemma print_array_mono pf pg n : (forall i, mono (pf i) (pg i)) -> mono (print_array n pf) (print_array n pg).
Proof.
  intros H w b E. unfold print_array in *. apply bind_ok in E as (w1 & E1 & E). rewrite E1. cbn [bind].
  apply bind_ok in E as ([fin w2] & E2 & E). rewrite (parray_mono _ _ H _ _ _ _ _ E2). cbn [bind]. exact E.
Qed.
Lemma pobject_mono pf pg sf sg : (forall k, mono (pf k) (pg k)) -> (forall k, mono (sf k) (sg k)) ->
  forall ks first, mono (pobject_loop first ks pf sf) (pobject_loop first ks pg sg).
Proof.
  intros H H'. induction ks as [|k ks IH]; intros first w b E; cbn [pobject_loop] in *; auto.
  destruct (negb (wok w)); auto. apply bind_ok in E as (sk & E0 & E). rewrite (H' _ _ _ E0). cbn [bind].
  destruct sk; [now apply IH|]. apply bind_ok in E as (w1 & E1 & E). rewrite E1. cbn [bind].
  apply bind_ok in E as (w2 & E2 & E). rewrite E2. cbn [bind].
  apply bind_ok in E as (w3 & E3 & E). rewrite (H _ _ _ E3). cbn [bind]. now apply IH.
Qed.
Lemma print_object_mono pf pg sf sg ks : (forall k, mono (pf k) (pg k)) -> (forall k, mono (sf k) (sg k)) ->
  mono (print_object ks pf sf) (print_object ks pg sg).
Proof.
  intros H H' w b E. unfold print_object in *. apply bind_ok in E as (w1 & E1 & E). rewrite E1. cbn [bind].
  apply bind_ok in E as ([fin w2] & E2 & E). rewrite (pobject_mono _ _ _ _ H H' _ _ _ _ E2). cbn [bind]. exact E.
Qed.
Lemma is_empty_mono e : forall f g t, f <= g -> mono (is_empty f e t) (is_empty g e t).
Proof.
  induction f as [|f IH]; intros g t Hg v b E; [discriminate|]. destruct g as [|g]; [lia|]. cbn [is_empty] in *.
  destruct (nth_error e t) as [[]|]; auto. destruct v as [| | | | |[p|]| | |]; auto. eapply IH; [|exact E]. lia.
Qed.
Lemma print_mono e : forall f g t v, f <= g -> mono (print_t f e t v) (print_t g e t v).
Proof.
  induction f as [|f IH]; intros g t v Hg w b E; [discriminate|]. destruct g as [|g]; [lia|]. cbn [print_t] in *.
  destruct (nth_error e t) as [[]|]; auto; destruct v as [| | | | |[p|]| | |]; auto.
  - eapply IH; [|exact E]. lia.
  - eapply print_object_mono; [| |exact E].
    + intros k w' b' E'. destruct (afind k m); auto. eapply IH; [|exact E']. lia.
    + intros k w' b' E'. exact E'.
  - eapply print_array_mono; [|exact E]. intros k w' b' E'. destruct (nth_error l k); auto. eapply IH; [|exact E']. lia.
  - eapply print_object_mono; [| |exact E].
    + intros k w' b' E'. destruct (find_last_alias fs k); auto. eapply IH; [|exact E']. lia.
    + intros k w' b' E'. cbv beta in *. destruct (negb (w_compact (wopt w')) && negb (skip_empty_alias fs k)); auto.
      destruct (find_last_alias fs k); auto. eapply is_empty_mono; [|exact E']. lia.
Qed.

Lemma print_text_ok wo d e t v j : env_ok e -> no_void e -> t < length e -> typed e t v ->
  shows e (w_compact wo) t v j -> strings_ok (str_ok wo d) j -> (w_pretty wo = true -> depth j <= 1024) ->
  exists x, whole_text d j x [] /\ exists steps, forall fuel, steps <= fuel -> print_text fuel wo e t v = Ok (x, false).
Proof.
  intros He Hv Ht Hty Hsh Hs Hd. destruct (init_printer_steps e t He Hv Ht) as (n1 & Hi).
  destruct (proj1 (shows_prints e wo d He) _ _ _ Hsh Hty Hs) as (n2 & Hp).
  assert (Hw : inv wo (writer_init wo)) by (split; reflexivity).
  assert (Hr : room wo (writer_init wo) (depth j)).
  { intro Hpr. specialize (Hd Hpr). cbn [windent writer_init]. lia. }
  destruct (Hp n2 (le_n _) _ Hw Hr) as (x & E & Hx).
  exists x. split; [now apply tx_whole|]. exists (n1 + n2). intros fuel Hf.
  destruct (Hi fuel ltac:(lia)) as (c & Ec). unfold print_text. rewrite Ec. cbn [bind].
  rewrite (print_mono e n2 fuel t v ltac:(lia) _ _ E). reflexivity.
Qed.

(* ---- every typed value is printed as some document ---- *)
Fixpoint emptyb (v : val) : bool :=
  match v with
  | VInt z => Z.eqb z 0
  | VFloat x => float_zero x
  | VStr s => match s with [] => true | _ => false end
  | VPtr (Some p) => emptyb p
  | VPtr None => true
  | VList l => match l with [] => true | _ => false end
  | VMap m => match m with [] => true | _ => false end
  | _ => false
  end.
Lemma emptyb_ok v : emptyb v = true <-> empty_val v.
Proof.
  split.
  - revert v. fix IH 1. intros [|b|z|x|s|[p|]|l|m|o] H; cbn [emptyb] in H; try discriminate.
    + apply Z.eqb_eq in H. subst. constructor.
    + constructor. now apply float_zero_iff.
    + destruct s; [constructor|discriminate].
    + constructor. now apply IH.
    + constructor.
    + destruct l; [constructor|discriminate].
    + destruct m; [constructor|discriminate].
  - induction 1; auto. now apply float_zero_iff.
Qed.
Definition omitb (compact : bool) (f : field) (x : val) : bool := f_skip f || ((compact || f_skipempty f) && emptyb x).
Lemma omitb_ok c f x : omitb c f x = true <-> omitted c f x.
Proof.
  unfold omitb, omitted. rewrite orb_true_iff, andb_true_iff, orb_true_iff, emptyb_ok. tauto.
Qed.

Lemma fold_max {A} (g : A -> nat) l x : In x l -> g x <= fold_right (fun y n => Nat.max (g y) n) 0 l.
Proof. induction l as [|y l IH]; cbn; [tauto|]. intros [->|H]; [lia|]. specialize (IH H). lia. Qed.
Lemma fold_max_le {A} (g : A -> nat) l b : (forall x, In x l -> g x <= b) -> fold_right (fun y n => Nat.max (g y) n) 0 l <= b.
Proof. induction l as [|y l IH]; cbn; intro H; [lia|]. pose proof (H y (or_introl eq_refl)). assert (fold_right (fun y n => Nat.max (g y) n) 0 l <= b) by (apply IH; intros; apply H; now right). lia. Qed.
Lemma afind_In {V : Type} k (x : V) m : afind k m = Some x -> In (k, x) m.
Proof.
  induction m as [|[k' y] m IH]; cbn [afind]; [discriminate|]. destruct (str_eqb k k') eqn:E; intro H.
  - apply str_eqb_eq in E. injection H as <-. subst. now left.
  - right. auto.
Qed.
Lemma keys_find {V : Type} k (m : list (str * V)) : In k (akeys m) -> exists x, afind k m = Some x.
Proof.
  induction m as [|[k' y] m IH]; cbn [akeys map fst In afind]; [tauto|]. intros [->|H].
  - rewrite str_eqb_refl. eauto.
  - destruct (str_eqb k k'); eauto.
Qed.
Lemma sorted_filter (g : field -> bool) l : sorted (map json_name l) -> sorted (map json_name (filter g l)).
Proof.
  induction l as [|f l IH]; cbn [filter map sorted]; auto. intros [A B]. destruct (g f); cbn [map sorted]; auto.
  split; auto. intros b Hb. apply in_map_iff in Hb as (h & <- & Hh). apply filter_In in Hh as [Hh _]. apply A. now apply in_map.
Qed.

Definition doc_of (e : env) (c : bool) (t : nat) (v : val) (j : json) : Prop :=
  shows e c t v j /\ (forall P, names_ok P e -> all_strings P v -> strings_ok P j) /\ depth j <= vdepth v.
Lemma typed_shows e c : env_ok e -> forall t v, typed e t v -> exists j, doc_of e c t v j.
Proof.
  intro He. induction 1 as [t b Ht|t z Ht Hz|t x Ht Hx|t s Ht|t sm i Ht|t sm i p Ht Hp IH|t i l Ht Hl IH|t i m Ht Hso Hm IH|t fs ini o Ht Hnk Hk Hfs IH].
  - eexists; split; [now constructor|split; [intros; constructor|cbn; lia]].
  - eexists; split; [now constructor|split; [intros; constructor|cbn; lia]].
  - eexists; split; [now constructor|split; [intros; constructor|cbn; lia]].
  - exists (JStr s); split; [now constructor|split; [intros P _ H; inversion H; now constructor|cbn; lia]].
  - exists JNull; split; [econstructor; eauto|split; [intros; constructor|cbn; lia]].
  - destruct IH as (j & A & B & C). exists j. split; [econstructor; eauto|]. split; [|exact C].
    intros P HP H. inversion H; subst. now apply B.
  - assert (G : exists js, shows_items e c i l js /\ Forall2 (doc_of e c i) l js).
    { clear Hl. induction l as [|x l IHl]; [exists []; split; constructor|].
      destruct (IH x (or_introl eq_refl)) as (j & Hj). destruct IHl as (js & A & B); [intros; apply IH; now right|].
      exists (j :: js). split; constructor; auto. apply Hj. }
    destruct G as (js & A & B). exists (JArr js). split; [econstructor; eauto|]. split.
    + intros P HP H. inversion H as [| | | | | | |l0 Hall| |]; subst. constructor. intros j Hj.
      clear -B Hall HP Hj. induction B as [|x y l js D B IHB]; [destruct Hj|]. destruct Hj as [<-|Hj].
      * apply D; auto. apply Hall. now left.
      * apply IHB; auto. intros z Hz. apply Hall. now right.
    + cbn [depth vdepth]. clear -B. induction B as [|x y l js D B IHB]; cbn [fold_right]; [lia|]. destruct D as (_ & _ & D). lia.
  - assert (G : exists js, shows_pairs e c i m js /\ Forall2 (fun kx kj => fst kj = fst kx /\ doc_of e c i (snd kx) (snd kj)) m js).
    { clear Hm Hso. induction m as [|[k x] m IHl]; [exists []; split; constructor|].
      destruct (IH k x (or_introl eq_refl)) as (j & Hj). destruct IHl as (js & A & B); [intros; eapply IH; right; eauto|].
      exists ((k, j) :: js). split; constructor; auto. apply Hj. }
    destruct G as (js & A & B). exists (JObj js). split; [econstructor; eauto|]. split.
    + intros P HP H. inversion H as [| | | | | | | |m0 Hall|]; subst. constructor. intros k j Hj.
      clear -B Hall HP Hj. induction B as [|[k' x] [k'' y] l js D B IHB]; [destruct Hj|]. cbn [fst snd] in D. destruct D as [-> D].
      destruct (Hall k' x (or_introl eq_refl)) as [P1 P2].
      destruct Hj as [Hj|Hj].
      * injection Hj as <- <-. split; auto. now apply D.
      * apply IHB; auto. intros ? ? Hz. apply Hall. now right.
    + cbn [depth vdepth]. clear -B. induction B as [|[k' x] [k'' y] l js D B IHB]; cbn [fold_right fst snd] in *; [lia|]. destruct D as (_ & _ & _ & D). lia.
  - set (sel := filter (fun f => match afind (f_key f) o with Some x => negb (omitb c f x) | None => false end) (sort_f (obj_fields fs))).
    assert (Hex : forall f, In f fs -> exists x, afind (f_key f) o = Some x).
    { intros f Hf. apply keys_find. rewrite Hk. now apply in_map. }
    destruct (He t _ Ht) as [Hnd _]. cbn in Hnd. fold (obj_fields fs) in Hnd.
    assert (Hsel : forall f, In f sel <-> In f fs /\ exists x, afind (f_key f) o = Some x /\ ~ omitted c f x).
    { intro f. unfold sel. rewrite filter_In. split.
      - intros [H1 H2]. apply (Permutation_in _ (sort_perm _)) in H1. apply filter_In in H1 as [H1 _]. split; auto.
        destruct (afind (f_key f) o) as [x|]; [|discriminate]. exists x. split; auto. rewrite <- omitb_ok. now destruct (omitb c f x).
      - intros (H1 & x & H2 & H3). rewrite H2. rewrite <- omitb_ok in H3. split; [|now destruct (omitb c f x)].
        apply (Permutation_in _ (Permutation_sym (sort_perm _))). apply filter_In. split; auto.
        unfold omitb in H3. destruct (f_skip f); auto. }
    assert (G : forall l, (forall f, In f l -> In f sel) -> exists kjs, shows_members e c o l kjs /\
       Forall2 (fun f kj => fst kj = json_name f /\ In f fs /\ exists x, In (f_key f, x) o /\ doc_of e c (f_type f) x (snd kj)) l kjs).
    { induction l as [|f l IHl]; intro Hl; [exists []; split; constructor|].
      destruct (proj1 (Hsel f) (Hl f (or_introl eq_refl))) as (Hf & x & Hx & _).
      destruct (IH f x Hf Hx) as (j & Hj). destruct IHl as (js & A & B); [intros; apply Hl; now right|].
      exists ((json_name f, j) :: js). split.
      - econstructor; eauto. apply Hj.
      - constructor; auto. split; [reflexivity|]. split; [exact Hf|]. exists x. split; auto. now apply afind_In. }
    destruct (G sel (fun f H => H)) as (kjs & A & B). exists (JObj kjs). split; [|split].
    + apply (sh_obj e c t fs ini o sel kjs Ht); auto.
      * unfold sel. apply sorted_filter. now apply sort_sorted.
      * intros f x Hf Hx. rewrite Hsel. split; [intros (_ & y & Hy & Ho); congruence|]. intro Ho. split; eauto.
      * intros f Hf. now apply Hsel in Hf.
    + intros P HP H. inversion H as [| | | | | | | | |o0 Hall]; subst. constructor. intros k j Hj.
      clear -B Hall HP Hj Ht. induction B as [|f [k'' y] l js D B IHB]; [destruct Hj|]. cbn [fst snd] in D. destruct D as (-> & Hf & x & Hx & D).
      destruct Hj as [Hj|Hj]; [|now apply IHB].
      injection Hj as <- <-. split; [eapply HP; eauto|]. apply D; auto. eapply Hall; eauto.
    + cbn [depth vdepth]. apply le_n_S, fold_max_le. intros [k j] Hj. cbn [snd].
      clear -B Hj. induction B as [|f [k'' y] l js D B IHB]; [destruct Hj|]. cbn [fst snd] in D. destruct D as (-> & Hf & x & Hx & D).
      destruct Hj as [Hj|Hj]; [|now apply IHB]. injection Hj as <- <-. destruct D as (_ & _ & D).
      pose proof (fold_max (fun kv : str * val => vdepth (snd kv)) o _ Hx) as L. cbn [snd] in L. lia.
Qed.

(* ---- reading the document back ---- *)
Lemma last_of_nodup {V : Type} k (m : list (str * V)) : NoDup (akeys m) -> last_of k m = afind k m.
Proof.
  induction m as [|[k' x] m IH]; cbn [last_of afind akeys map fst]; intro H; auto. inversion H as [|? ? A B]; subst.
  rewrite (IH B). destruct (str_eqb k k') eqn:E; [|now destruct (afind k m)].
  apply str_eqb_eq in E. subst k'. destruct (afind k m) eqn:F; auto. destruct A. apply afind_In in F. now apply (in_map fst) in F.
Qed.
Lemma find_keys {V : Type} k (m : list (str * V)) : ~ In k (akeys m) -> afind k m = None.
Proof. intro H. destruct (afind k m) eqn:F; auto. destruct H. apply afind_In in F. now apply (in_map fst) in F. Qed.
Lemma alist_ext {V : Type} (m m' : list (str * V)) : akeys m = akeys m' -> NoDup (akeys m) -> (forall k, In k (akeys m) -> afind k m = afind k m') -> m = m'.
Proof.
  revert m'. induction m as [|[k x] m IH]; intros [|[k' x'] m'] Hk Hn Hf; try discriminate; auto.
  cbn [akeys map fst] in *. injection Hk as -> Hk. inversion Hn as [|? ? A B]; subst. f_equal.
  - specialize (Hf k' (or_introl eq_refl)). cbn [afind] in Hf. rewrite str_eqb_refl in Hf. congruence.
  - apply IH; auto. intros k Hi. specialize (Hf k (or_intror Hi)). cbn [afind] in Hf.
    destruct (str_eqb k k') eqn:E; auto. apply str_eqb_eq in E. subst. contradiction.
Qed.

Section Back.
Variables (e : env) (c : bool).
Hypothesis He : env_ok e.
Definition Bshow t v j := typed e t v -> forall v0, restores e c t v0 v -> reads e t v0 j v /\ (v <> VPtr None -> j <> JNull).
Definition Bitems i (l : list val) js := (forall x, In x l -> typed e i x) -> (forall x, In x l -> restores e c i (dval e i) x) -> reads_items e i js l.
Definition Bpairs i (m : list (str * val)) (kjs : list (str * json)) :=
  (forall k x, In (k, x) m -> typed e i x) -> (forall k x, In (k, x) m -> restores e c i (dval e i) x) -> reads_pairs e i kjs m.
Definition Bmembers (o : list (str * val)) (sel : list field) (kjs : list (str * json)) :=
  forall fs oc, NoDup (map f_key sel) ->
  (forall f, In f sel -> In f fs /\ f_skip f = false /\ (forall g, In g fs -> f_skip g = false -> json_name g = json_name f -> g = f)) ->
  (forall f x, In f sel -> afind (f_key f) o = Some x -> typed e (f_type f) x /\
     exists x0, afind (f_key f) oc = Some x0 /\ restores e c (f_type f) x0 x) ->
  exists o', reads_members e fs oc kjs o' /\ akeys o' = akeys oc /\
    (forall f, In f sel -> afind (f_key f) o' = afind (f_key f) o) /\
    (forall k, ~ In k (map f_key sel) -> afind k o' = afind k oc).

Lemma Bnot_raw i x j : Bshow i x j -> typed e i x -> restores e c i (dval e i) x -> ~ raw_null e i j.
Proof.
  intros H Ht Hr (Hj & k & Hk). destruct (H Ht _ Hr) as (_ & A).
  assert (X : x = VPtr None).
  { destruct x as [| | | | |[p|]| | |]; try (exfalso; apply A; [discriminate|exact Hj]). reflexivity. }
  subst x. inversion Hr; subst. congruence.
Qed.

Lemma shows_reads :
  (forall t v j, shows e c t v j -> Bshow t v j) /\
  (forall i l js, shows_items e c i l js -> Bitems i l js) /\
  (forall i m kjs, shows_pairs e c i m kjs -> Bpairs i m kjs) /\
  (forall o sel kjs, shows_members e c o sel kjs -> Bmembers o sel kjs).
Proof.
  apply shows_comb.
  - intros t b Ht _ v0 _. split; [now constructor|discriminate].
  - intros t z Ht Hty v0 _. split; [|discriminate]. inversion Hty; subst. now constructor.
  - intros t x Ht Hx _ v0 _. split; [constructor; auto using float_text_read|discriminate].
  - intros t s Ht _ v0 _. split; [now constructor|discriminate].
  - intros t sm i Ht _ v0 Hr. split; [|congruence]. inversion Hr; subst. eapply rd_null; eauto.
  - intros t sm i p j Ht _ IH Hty v0 Hr. inversion Hty as [| | | | |t0 sm0 i0 p0 Ht0 Hp0| | |]; subst. rewrite Ht in Ht0. injection Ht0 as <- <-.
    inversion Hr as [| | | | |t1 sm1 i1 p1 p2 Ht1 Hn1 Hr1| | |]; subst. rewrite Ht in Ht1. injection Ht1 as <- <-.
    destruct (IH Hp0 _ Hr1) as [A B]. split; [|intros _; now apply B]. eapply rd_ptr; eauto.
  - intros t i l js Ht _ IH Hty v0 Hr. split; [|discriminate].
    inversion Hty as [| | | | | |t0 i0 l0 Ht0 Hl| |]; subst. rewrite Ht in Ht0. injection Ht0 as <-.
    inversion Hr as [| | | | | |t1 i1 l1 Ht1 Hr1| |]; subst. rewrite Ht in Ht1. injection Ht1 as <-.
    apply (rd_list e t i [] js l); auto.
  - intros t i m kjs Ht Hso _ IH Hty v0 Hr. split; [|discriminate].
    inversion Hty as [| | | | | | |t0 i0 l0 Ht0 _ Hm|]; subst. rewrite Ht in Ht0. injection Ht0 as <-.
    inversion Hr as [| | | | | | |t1 i1 m0 m1 Ht1 Hs0 Hs1 Hsub Hr1|]; subst. rewrite Ht in Ht1. injection Ht1 as <-.
    eapply rd_map; eauto. split; [exact Hs1|]. intro k. rewrite (last_of_nodup k m Hso).
    destruct (afind k m) eqn:F; auto. symmetry. apply find_keys. intro K. apply Hsub in K. apply keys_find in K as (x & K). congruence.
  - intros t fs ini o sel kjs Ht Hso Hex Hsel Hsub _ IH Hty v0 Hr. split; [|discriminate].
    inversion Hty as [| | | | | | | |t0 fs0 ini0 o0 Ht0 Hnk Hk Hfs]; subst. rewrite Ht in Ht0. injection Ht0 as <- <-.
    inversion Hr as [| | | | | | | |t1 fs1 ini1 o1 o2 Ht1 Hk1 Hr1]; subst. rewrite Ht in Ht1. injection Ht1 as <- <-.
    destruct (He t _ Ht) as [Hnd _]. cbn in Hnd.
    assert (Hns : forall f, In f sel -> f_skip f = false).
    { intros f Hf. destruct (Hex f (Hsub f Hf)) as (x & Hx). pose proof (proj1 (Hsel f x (Hsub f Hf) Hx) Hf) as Ho.
      destruct (f_skip f) eqn:E; auto. destruct Ho. now left. }
    destruct (IH fs o1) as (o' & A & B & C & D).
    + assert (Hsn : NoDup sel). { eapply NoDup_map_inv. apply sorted_NoDup. exact Hso. }
      clear -Hsn Hsub Hnk. induction sel as [|f sel IHs]; [constructor|]. inversion Hsn as [|? ? P Q]; subst. cbn [map]. constructor.
      * intro K. apply in_map_iff in K as (g & Eg & Hg). apply P.
        assert (f = g); [|congruence]. clear -Hnk Hsub Hg Eg.
        assert (Hf : In f fs) by (apply Hsub; now left). assert (Hgf : In g fs) by (apply Hsub; now right). clear Hsub Hg.
        induction fs as [|h fs IHf]; [destruct Hf|]. cbn [map] in Hnk. inversion Hnk as [|? ? U V]; subst.
        destruct Hf as [->|Hf], Hgf as [->|Hgf]; auto; exfalso; apply U; [rewrite <- Eg|rewrite Eg]; now apply in_map.
      * apply IHs; auto. intros g Hg. apply Hsub. now right.
    + intros f Hf. split; [auto|]. split; [auto|]. intros g Hg Hgs Hn. apply (name_inj (obj_fields fs)); auto; apply filter_In; (split; [auto|]); [now rewrite Hgs|now rewrite (Hns f Hf)].
    + intros f x Hf Hx. split; [auto|]. assert (K : In (f_key f) (akeys o1)). { rewrite Hk1, Hk. apply in_map. auto. }
      apply keys_find in K as (x0 & Hx0). exists x0. split; auto. apply (Hr1 f x x0); auto. now apply (proj1 (Hsel f x (Hsub f Hf) Hx)).
    + assert (o' = o).
      { apply alist_ext; [congruence|rewrite B, Hk1, Hk; exact Hnk|]. intros k K. rewrite B, Hk1, Hk in K. apply in_map_iff in K as (f & <- & Hf).
        destruct (in_dec (list_eq_dec N.eq_dec) (f_key f) (map f_key sel)) as [K|K].
        - apply in_map_iff in K as (g & Eg & Hg). rewrite <- Eg. now apply C.
        - rewrite (D _ K). destruct (Hex f Hf) as (x & Hx). assert (K1 : In (f_key f) (akeys o1)). { rewrite Hk1, Hk. now apply in_map. }
          apply keys_find in K1 as (x0 & Hx0). rewrite Hx, Hx0. f_equal. apply (Hr1 f x x0 Hf Hx Hx0).
          apply omitb_ok. destruct (omitb c f x) eqn:E; auto. exfalso. apply K. apply in_map. apply (Hsel f x Hf Hx). rewrite <- omitb_ok. congruence. }
      subst o'. eapply rd_obj; eauto.
  - intros i _ _. constructor.
  - intros i x l j js _ IH _ IH' Ht Hr. constructor; [apply (Bnot_raw i x j IH); [apply Ht|apply Hr]; now left|apply IH; [apply Ht|apply Hr]; now left|apply IH'; intros; [apply Ht|apply Hr]; now right].
  - intros i _ _. constructor.
  - intros i k x m j kjs _ IH _ IH' Ht Hr. constructor; [apply (Bnot_raw i x j IH); [eapply Ht|eapply Hr]; now left|apply IH; [eapply Ht|eapply Hr]; now left|apply IH'; intros; [eapply Ht|eapply Hr]; right; eauto].
  - intros o fs oc _ _ _. exists oc. repeat split; auto; [constructor|intros f []].
  - intros o f x sel j kjs Hx _ IH _ IH' fs oc Hnd Hf Hr. cbn [map] in Hnd. inversion Hnd as [|? ? P Q]; subst.
    destruct (Hr f x (or_introl eq_refl) Hx) as (Hty & x0 & Hx0 & Hrs). destruct (IH Hty x0 Hrs) as [A _].
    destruct (Hf f (or_introl eq_refl)) as (F1 & F2 & F3).
    destruct (IH' fs (aset (f_key f) x oc) Q) as (o' & B1 & B2 & B3 & B4).
    + intros g Hg. apply Hf. now right.
    + intros g y Hg Hy. destruct (Hr g y (or_intror Hg) Hy) as (T1 & y0 & Hy0 & T2). split; auto. exists y0. split; auto.
      rewrite afind_aset_other; auto. intro K. apply P. rewrite <- K. now apply in_map.
    + exists o'. split; [|split; [|split]].
      * eapply rm_known; eauto.
      * rewrite B2, akeys_aset. unfold ahas. now rewrite Hx0.
      * intros g [<-|Hg]; [|now apply B3]. rewrite (B4 _ P), afind_aset_same. auto.
      * intros k K. cbn [map In] in K. rewrite B4 by tauto. rewrite afind_aset_other; auto.
Qed.
End Back.

Lemma round_trip wo o e t v v0 : env_ok e -> no_void e -> t < length e -> typed e t v ->
  restores e (w_compact wo) t v0 v -> names_ok (str_ok wo (dia o)) e -> all_strings (str_ok wo (dia o)) v ->
  (w_pretty wo = true -> vdepth v <= 1024) ->
  exists x steps, forall fuel, steps <= fuel ->
    print_text fuel wo e t v = Ok (x, false) /\
    exists r, parse_text fuel o e t v0 x = Ok (v, r) /\ rerr r = None /\ rin r = [].
Proof.
  intros He Hv Ht Hty Hrs Hn Ha Hd. destruct (typed_shows e (w_compact wo) He t v Hty) as (j & Hsh & Hst & Hde).
  destruct (print_text_ok wo (dia o) e t v j) as (x & Hx & n1 & Hp); auto. { intro H. specialize (Hd H). lia. }
  destruct (proj1 (shows_reads e (w_compact wo) He) _ _ _ Hsh Hty v0 Hrs) as [Hre _].
  destruct (parse_text_ok o e t v0 j v x [] He Ht Hre Hx) as (n2 & Hq).
  exists x, (n1 + n2). intros fuel Hf. split; [apply Hp; lia|apply Hq; lia].
Qed.

(* ---- simple environments ---- *)
Lemma simple_empty e c t x f : simple_env e -> typed e t x -> f_skip f = false -> omitted c f x -> x = dval e t.
Proof.
  intros [_ Hs] Hty Hf [K|[_ K]]; [congruence|]. unfold dval.
  destruct Hty as [t b Ht|t z Ht Hz|t y Ht Hx|t s Ht|t sm i Ht|t sm i p Ht Hp|t i l Ht Hl|t i m Ht Hso Hm|t fs ini o Ht Hk Hfs]; rewrite Ht; inversion K; subst; auto;
   pose proof (Hs _ _ Ht) as F; destruct F.
Qed.
Lemma simple_restores e c t v : simple_env e -> typed e t v -> sorted_maps v -> restores e c t (dval e t) v.
Proof.
  intros [He Hs]. induction 1 as [t b Ht|t z Ht Hz|t x Ht Hx|t s Ht|t sm i Ht|t sm i p Ht Hp IH|t i l Ht Hl IH|t i m Ht Hso Hm IH|t fs ini o Ht Hnk Hk Hfs IH]; intro M.
  - now constructor.
  - now constructor.
  - destruct (Hs _ _ Ht).
  - now constructor.
  - destruct (Hs _ _ Ht).
  - destruct (Hs _ _ Ht).
  - unfold dval. rewrite Ht. inversion M as [| | | | | | |l0 Ml| |]; subst. eapply rs_list; [exact Ht|]. intros x Hx. apply IH; auto. now apply Ml.
  - unfold dval. rewrite Ht. inversion M as [| | | | | | | |m0 Mk Mm|]; subst. apply (rs_map e c t i [] m Ht I Mk); [intros k []|]. intros k x Hx. apply (IH k); auto. exact (Mm k x Hx).
  - unfold dval. rewrite Ht. destruct (Hs _ _ Ht) as [Hi Hf]. eapply rs_obj; eauto; [congruence|].
    intros f x x0 Hin Hx Hx0. destruct (Hf f Hin) as [Hsk Hd]. rewrite Hd in Hx0. injection Hx0 as <-. split.
    + intro Ho. symmetry. eapply simple_empty; eauto. now split.
    + intros _. apply IH; auto. inversion M as [| | | | | | | | |o' Mo]; subst. apply (Mo (f_key f)). now apply afind_In.
Qed.
Lemma simple_no_void e : simple_env e -> no_void e.
Proof. intros [_ H] t Ht. exact (H _ _ Ht). Qed.
