(* ProofJsonT4.v - typed printing, and print_text. *)
From Coq Require String. Import String.StringSyntax.
From Verif Require Import Base Dec ModelJson ModelJsonW ModelJsonT SpecJson SpecJsonT ProofJson1 ProofJson2 ProofJson3 ProofJson4 ProofJson5 ProofJson6 ProofJson7 ProofJson8 ProofJson9 ProofJson10 ProofJsonT1 ProofJsonT2 PropJsonStr PropJsonTok ProofJsonT3.
From Coq Require Import Permutation.
Local Open Scope outcome_scope.

(* ---- emptiness ---- *)
Lemma float_zero_iff x : float_zero x = true <-> zero_text x.
Proof.
  unfold zero_text. induction x as [|c x IH]; cbn [float_zero].
  { split; auto. intros _ [|? m] c r E; discriminate. }
  destruct ((c =? 101) || (c =? 69))%N eqn:Ee.
  { split; auto. intros _ [|a m] b r E Hm Hb; injection E as -> E.
    - apply orb_true_iff in Ee as [Ee|Ee]; apply N.eqb_eq in Ee; subst; unfold digit_char in Hb; lia.
    - destruct (Hm a (or_introl eq_refl)) as [A B]. apply orb_true_iff in Ee as [Ee|Ee]; apply N.eqb_eq in Ee; now subst. }
  apply orb_false_iff in Ee as [Ea Eb]. apply N.eqb_neq in Ea, Eb.
  destruct (isdigit c && negb (c =? 48))%N eqn:Ed.
  { split; [discriminate|]. intro H. apply andb_true_iff in Ed as [E1 E2]. apply negb_true_iff, N.eqb_neq in E2.
    exfalso. apply E2. apply (H [] c x); [reflexivity|intros b []|]. unfold isdigit in E1. unfold digit_char.
    apply andb_true_iff in E1 as [A B]. apply N.leb_le in A, B. lia. }
  rewrite IH. split; intros H m b r E Hm Hb.
  - destruct m as [|a m]; injection E as -> E.
    + destruct (N.eqb_spec b 48); auto. exfalso. cbn [negb] in Ed. rewrite andb_true_r in Ed. unfold digit_char in Hb.
      enough (isdigit b = true) by congruence. unfold isdigit. apply andb_true_iff. now split; apply N.leb_le.
    + apply (H m b r); auto. intros y Hy. apply Hm. now right.
  - subst x. apply (H (c :: m) b r); auto. intros y [<-|Hy]; auto.
Qed.
Lemma is_empty_ok e t v : typed e t v -> exists n, forall f, n <= f -> exists b, is_empty f e t v = Ok b /\ (b = true <-> empty_val v).
Proof.
  induction 1.
  - exists 1. intros [|f] Hf; [lia|]. cbn [is_empty]. rewrite H. eexists. split; [reflexivity|]. split; [discriminate|intro K; inversion K].
  - exists 1. intros [|f] Hf; [lia|]. cbn [is_empty]. rewrite H. eexists. split; [reflexivity|].
    split; [intro E; apply Z.eqb_eq in E; subst; constructor|]. intro K. now inversion K.
  - exists 1. intros [|f] Hf; [lia|]. cbn [is_empty]. rewrite H. eexists. split; [reflexivity|].
    rewrite float_zero_iff. split; [now constructor|]. intro K. now inversion K.
  - exists 1. intros [|f] Hf; [lia|]. cbn [is_empty]. rewrite H. eexists. split; [reflexivity|].
    split; [destruct s; [constructor|discriminate]|]. intro K. now inversion K.
  - exists 1. intros [|f] Hf; [lia|]. cbn [is_empty]. rewrite H. eexists. split; [reflexivity|]. split; [constructor|auto].
  - destruct IHtyped as (n & IH). exists (S n). intros [|f] Hf; [lia|]. cbn [is_empty]. rewrite H.
    destruct (IH f ltac:(lia)) as (b & E & Hb). exists b. split; [exact E|]. rewrite Hb. split; [now constructor|]. intro K. now inversion K.
  - exists 1. intros [|f] Hf; [lia|]. cbn [is_empty]. rewrite H. eexists. split; [reflexivity|]. cbn [list_of].
    split; [destruct l; [constructor|discriminate]|]. intro K. now inversion K.
  - exists 1. intros [|f] Hf; [lia|]. cbn [is_empty]. rewrite H. eexists. split; [reflexivity|]. cbn [map_of].
    split; [destruct m; [constructor|discriminate]|]. intro K. now inversion K.
  - exists 1. intros [|f] Hf; [lia|]. cbn [is_empty]. rewrite H. eexists. split; [reflexivity|]. split; [discriminate|intro K; inversion K].
Qed.

(* ---- sorting the fields ---- *)
Fixpoint insert_f (f : field) (l : list field) : list field :=
  match l with
  | [] => [f]
  | x :: l' => if str_ltb (f_name f) (f_name x) then f :: l else x :: insert_f f l'
  end.
Definition sort_f (l : list field) : list field := fold_right insert_f [] l.
Lemma insert_names f l : map f_name (insert_f f l) = insert_str (f_name f) (map f_name l).
Proof. induction l as [|x l IH]; cbn [insert_f map insert_str]; auto. destruct (str_ltb _ _); cbn [map]; [reflexivity|now rewrite IH]. Qed.
Lemma sort_names l : map f_name (sort_f l) = sort_strs (map f_name l).
Proof. induction l as [|x l IH]; cbn [sort_f sort_strs fold_right map]; auto. rewrite insert_names. f_equal. exact IH. Qed.
Lemma insert_perm f l : Permutation (insert_f f l) (f :: l).
Proof.
  induction l as [|x l IH]; cbn [insert_f]; auto. destruct (str_ltb _ _); auto.
  rewrite IH. apply perm_swap.
Qed.
Lemma sort_perm l : Permutation (sort_f l) l.
Proof. induction l as [|x l IH]; cbn [sort_f fold_right]; auto. rewrite insert_perm. now constructor. Qed.
Lemma insert_sorted f l : sorted (map f_name l) -> ~ In (f_name f) (map f_name l) -> sorted (map f_name (insert_f f l)).
Proof.
  induction l as [|x l IH]; intros Hs Hn; cbn [insert_f].
  - cbn. split; [intros b []|exact I].
  - cbn [map sorted] in Hs. destruct Hs as [H1 H2]. destruct (str_ltb (f_name f) (f_name x)) eqn:L.
    + cbn [map sorted]. split; [|split; auto]. intros b [<-|Hb]; auto. eapply str_ltb_trans; eauto.
    + cbn [map sorted]. split; [|apply IH; auto; intro C; apply Hn; now right].
      intros b Hb. apply in_map_iff in Hb as (g & <- & Hg). apply (Permutation_in _ (insert_perm f l)) in Hg as [->|Hg].
      * destruct (str_ltb_total (f_name g) (f_name x)) as [E|[E|E]]; [|congruence|exact E]. destruct Hn. left. auto.
      * apply H1. now apply in_map.
Qed.
Lemma sort_sorted l : NoDup (map f_name l) -> sorted (map f_name (sort_f l)).
Proof.
  induction l as [|x l IH]; intro H; [exact I|]. cbn [map] in H. inversion H as [|? ? A B]; subst.
  cbn [sort_f fold_right]. apply insert_sorted; [now apply IH|].
  intro C. apply A. eapply Permutation_in; [|exact C]. apply Permutation_map. apply sort_perm.
Qed.

Lemma name_inj l f g : NoDup (map json_name l) -> In f l -> In g l -> json_name f = json_name g -> f = g.
Proof.
  induction l as [|x l IH]; intros Hn Hf Hg E; [destruct Hf|]. cbn [map] in Hn. inversion Hn as [|? ? A B]; subst.
  destruct Hf as [->|Hf], Hg as [->|Hg]; auto.
  - destruct A. rewrite E. now apply in_map.
  - destruct A. rewrite <- E. now apply in_map.
Qed.

Lemma find_last_ok fs f : NoDup (map json_name (obj_fields fs)) -> In f (obj_fields fs) -> find_last_alias fs (json_name f) = Some f.
Proof.
  intros Hn Hf. unfold find_last_alias. destruct (find _ _) as [g|] eqn:E.
  - apply find_some in E as [Hg Ha]. apply in_rev in Hg. apply str_eqb_eq in Ha. f_equal.
    symmetry. eapply name_inj; eauto.
  - apply in_rev in Hf. pose proof (find_none _ _ E f Hf) as C. cbv beta in C. change (f_name f) with (json_name f) in C.
    rewrite str_eqb_refl in C. discriminate.
Qed.
Lemma skip_empty_ok fs f : NoDup (map json_name (obj_fields fs)) -> In f (obj_fields fs) -> skip_empty_alias fs (json_name f) = f_skipempty f.
Proof.
  intros Hn Hf. unfold skip_empty_alias. destruct (existsb _ _) eqn:E.
  - apply existsb_exists in E as (g & Hg & Ha). apply andb_prop in Ha as [Ha Hs]. apply str_eqb_eq in Ha.
    assert (f = g) by (eapply name_inj; eauto). now subst.
  - destruct (f_skipempty f) eqn:F; auto. rewrite <- E. apply existsb_exists. exists f. split; auto.
    change (f_name f) with (json_name f). now rewrite str_eqb_refl, F.
Qed.

Section Print.
Variables (e : env) (wo : wopts) (d : dialect).
Hypothesis He : env_ok e.

Lemma oprint_fields pfn sfn : forall ord sel kjs,
  sorted (map json_name ord) -> sorted (map json_name sel) -> (forall f, In f sel -> In f ord) ->
  (forall f, In f ord -> ~ In f sel -> forall w, inv wo w -> sfn (json_name f) w = Ok true) ->
  Forall2 (fun f kj => fst kj = json_name f /\ str_ok wo d (json_name f) /\
     (forall w, inv wo w -> sfn (json_name f) w = Ok false) /\ prints wo d (pfn (json_name f)) (snd kj)) sel kjs ->
  oprint wo d pfn sfn (map json_name ord) kjs.
Proof.
  induction ord as [|f ord IH]; intros sel kjs So Ss Hin Hsk Hp.
  - destruct sel as [|g sel]; [|destruct (Hin g); now left]. inversion Hp; subst. constructor.
  - cbn [map sorted] in So. destruct So as [So1 So2].
    destruct sel as [|g sel].
    + inversion Hp; subst. cbn [map]. apply op_skip; [intros w Hw; apply Hsk; auto; now left|].
      apply (IH [] []); auto; [intros ? []|intros f' Hf' _; apply Hsk; auto; now right].
    + cbn [map sorted] in Ss. destruct Ss as [Ss1 Ss2].
      destruct (Hin g (or_introl eq_refl)) as [->|Hg].
      * inversion Hp as [|? [k j] ? ? (A & B & C & D) Hp']; subst. cbn [fst snd] in *. subst k. cbn [map]. apply op_show; auto.
        apply (IH sel); auto.
        { intros h Hh. destruct (Hin h (or_intror Hh)) as [->|]; auto.
          exfalso. specialize (Ss1 (json_name h) (in_map _ _ _ Hh)). rewrite str_ltb_irrefl in Ss1. discriminate. }
        { intros h Hh Hns. apply Hsk; [now right|]. intros [->|Hs]; [|contradiction].
          specialize (So1 (json_name h) (in_map _ _ _ Hh)). rewrite str_ltb_irrefl in So1. discriminate. }
      * assert (Hfs : ~ In f (g :: sel)).
        { intros [->|Hs].
          - specialize (So1 (json_name f) (in_map _ _ _ Hg)). rewrite str_ltb_irrefl in So1. discriminate.
          - specialize (So1 (json_name g) (in_map _ _ _ Hg)). specialize (Ss1 (json_name f) (in_map _ _ _ Hs)).
            rewrite (str_ltb_asym _ _ So1) in Ss1. discriminate. }
        cbn [map]. apply op_skip; [intros w Hw; apply Hsk; auto; now left|].
        apply (IH (g :: sel)); auto.
        { split; auto. }
        { intros h Hh. destruct (Hin h Hh) as [->|]; auto. contradiction. }
        { intros h Hh. apply Hsk. now right. }
Qed.

Notation SO := (strings_ok (str_ok wo d)).
Notation PR := (prints wo d).
Definition Pshow t v j := typed e t v -> SO j -> exists n, forall f, n <= f -> PR (print_t f e t v) j.
Definition Pitems i l js := (forall x, In x l -> typed e i x) -> (forall j, In j js -> SO j) ->
  exists n, forall f, n <= f -> Forall2 (fun x j => PR (print_t f e i x) j) l js.
Definition Ppairs i (m : list (str * val)) (kjs : list (str * json)) :=
  (forall k x, In (k, x) m -> typed e i x) -> (forall k j, In (k, j) kjs -> str_ok wo d k /\ SO j) ->
  exists n, forall f, n <= f -> Forall2 (fun kx kj => fst kj = fst kx /\ PR (print_t f e i (snd kx)) (snd kj)) m kjs.
Definition Pmembers (o : list (str * val)) (sel : list field) (kjs : list (str * json)) :=
  (forall f x, In f sel -> afind (f_key f) o = Some x -> typed e (f_type f) x) ->
  (forall k j, In (k, j) kjs -> str_ok wo d k /\ SO j) ->
  exists n, forall f, n <= f -> Forall2 (fun fd kj => fst kj = json_name fd /\
    exists x, afind (f_key fd) o = Some x /\ PR (print_t f e (f_type fd) x) (snd kj)) sel kjs.

Lemma prints_push j x : (forall w, inv wo w -> True) -> tx d (is_number j) (toks j) x -> PR (fun w => Ok (push x w)) j.
Proof. intros _ H w _ _. eauto. Qed.

Lemma Forall2_nth {A B} (R : A -> B -> Prop) l m n x y : Forall2 R l m -> nth_error l n = Some x -> nth_error m n = Some y -> R x y.
Proof.
  intro H. revert n. induction H as [|a b l m Hab Hf IH]; intros [|n] Hx Hy; try discriminate; cbn in *.
  - injection Hx as <-. injection Hy as <-. exact Hab.
  - eauto.
Qed.
Lemma Forall2_len {A B} (R : A -> B -> Prop) l m : Forall2 R l m -> length l = length m.
Proof. induction 1; cbn; congruence. Qed.

(* a common number of steps for the emptiness of all fields *)
Lemma empties (fs : list field) o : (forall f x, In f fs -> afind (f_key f) o = Some x -> typed e (f_type f) x) ->
  exists n, forall k, n <= k -> forall f x, In f fs -> afind (f_key f) o = Some x ->
    exists b, is_empty k e (f_type f) x = Ok b /\ (b = true <-> empty_val x).
Proof.
  induction fs as [|g fs IH]; intro H.
  - exists 0. intros k _ f x [].
  - destruct IH as (n & Hn); [intros; apply H; auto; now right|].
    destruct (afind (f_key g) o) as [y|] eqn:E.
    + destruct (is_empty_ok e (f_type g) y) as (n' & Hn'); [apply H; auto; now left|].
      exists (n + n'). intros k Hk f x [->|Hf] Hx; [|apply (Hn k); auto; lia].
      rewrite E in Hx. injection Hx as <-. apply Hn'. lia.
    + exists n. intros k Hk f x [->|Hf] Hx; [congruence|]. apply (Hn k); auto.
Qed.

Lemma shows_prints :
  (forall t v j, shows e (w_compact wo) t v j -> Pshow t v j) /\
  (forall i l js, shows_items e (w_compact wo) i l js -> Pitems i l js) /\
  (forall i m kjs, shows_pairs e (w_compact wo) i m kjs -> Ppairs i m kjs) /\
  (forall o sel kjs, shows_members e (w_compact wo) o sel kjs -> Pmembers o sel kjs).
Proof.
  apply shows_comb.
  - intros t b Ht _ _. exists 1. intros [|f] Hf; [lia|]. intros w Hw _. cbn [print_t]. rewrite Ht. eexists. split; [reflexivity|].
    cbn [toks]. eapply tx_weak; [|apply tx_tok; destruct b; constructor]. auto.
  - intros t z Ht _ _. exists 1. intros [|f] Hf; [lia|]. intros w Hw _. cbn [print_t]. rewrite Ht. eexists. split; [reflexivity|].
    cbn [toks]. apply (tx_tok d (AInt z)). constructor. apply show_int_text.
  - intros t x Ht Hx _ _. exists 1. intros [|f] Hf; [lia|]. intros w Hw _. cbn [print_t]. rewrite Ht. eexists. split; [reflexivity|].
    cbn [toks]. apply (tx_tok d (AFloat x)). now constructor.
  - intros t s Ht _ Hs. exists 1. intros [|f] Hf; [lia|]. intros w Hw _. cbn [print_t]. rewrite Ht. inversion Hs; subst.
    destruct (str_printed wo d s w) as (x & E & Hx); auto. exists x. split; [exact E|]. apply (tx_tok d (AStr s)). exact Hx.
  - intros t sm i Ht _ _. exists 1. intros [|f] Hf; [lia|]. intros w Hw _. cbn [print_t]. rewrite Ht. eexists. split; [reflexivity|].
    apply (tx_tok d ANull). constructor.
  - intros t sm i p j Ht _ IH Hty Hs. inversion Hty as [| | | | |t0 sm0 i0 p0 Ht0 Hp0| | |]; subst. rewrite Ht in Ht0. injection Ht0 as <- <-.
    destruct (IH Hp0 Hs) as (n & Hn). exists (S n). intros [|f] Hf; [lia|]. intros w Hw Hr. cbn [print_t]. rewrite Ht.
    apply Hn; auto. lia.
  - intros t i l js Ht _ IH Hty Hs. inversion Hty as [| | | | | |t0 i0 l0 Ht0 Hl| |]; subst. rewrite Ht in Ht0. injection Ht0 as <-.
    inversion Hs as [| | | | |l0 Hj|]; subst. destruct (IH Hl Hj) as (n & Hn). exists (S n). intros [|f] Hf; [lia|].
    specialize (Hn f ltac:(lia)). intros w Hw Hr. cbn [print_t]. rewrite Ht. rewrite (Forall2_len _ _ _ Hn).
    refine (print_array_ok wo d _ js _ w Hw Hr). intros k j Hk w' Hw' Hr'.
    destruct (nth_error l k) as [x|] eqn:Ex.
    + pose proof (Forall2_nth _ _ _ _ _ _ Hn Ex Hk) as Hx. now apply Hx.
    + apply nth_error_None in Ex. rewrite (Forall2_len _ _ _ Hn) in Ex. apply nth_error_None in Ex. congruence.
  - intros t i m kjs Ht Hso _ IH Hty Hs. inversion Hty as [| | | | | | |t0 i0 m0 Ht0 _ Hm|]; subst. rewrite Ht in Ht0. injection Ht0 as <-.
    inversion Hs as [| | | | | |l0 Hj]; subst. destruct (IH Hm Hj) as (n & Hn). exists (S n). intros [|f] Hf; [lia|].
    specialize (Hn f ltac:(lia)). intros w Hw Hr. cbn [print_t]. rewrite Ht. refine (print_object_ok wo d _ _ _ kjs _ w Hw Hr).
    assert (Hx : forall m' kjs', Forall2 (fun kx kj => fst kj = fst kx /\ PR (print_t f e i (snd kx)) (snd kj)) m' kjs' ->
      (forall k x, In (k, x) m' -> In (k, x) m) -> (forall k j, In (k, j) kjs' -> In (k, j) kjs) ->
      oprint wo d (fun (k : str) w => match afind k m with Some x => print_t f e i x w | None => Abort end) (fun _ _ => Ok false) (akeys m') kjs').
    { induction 1 as [|[k x] [k' j] m' kjs' [A B] Hf2 IHf]; intros Hi1 Hi2; [constructor|]. cbn [fst snd] in A, B. subst k'.
      cbn [akeys map fst]. apply op_show; auto.
      - intros w0 Hw0 Hr0. rewrite (In_afind_NoDup k x m); [now apply B|exact Hso|apply Hi1; now left].
      - apply (Hj k j). apply Hi2. now left.
      - apply IHf; intros; [apply Hi1|apply Hi2]; now right. }
    apply Hx; auto.
  - intros t fs ini o sel kjs Ht Hso Hex Hsel Hsub _ IH Hty Hs.
    inversion Hty as [| | | | | | | |t0 fs0 ini0 o0 Ht0 _ _ Hfs]; subst. rewrite Ht in Ht0. injection Ht0 as <- <-.
    inversion Hs as [| | | | | |l0 Hj]; subst.
    destruct (He t _ Ht) as [Hnd _]. cbn in Hnd. fold (obj_fields fs) in Hnd.
    destruct (IH (fun f x Hf Hx => Hfs f x (Hsub f Hf) Hx) Hj) as (n & Hn).
    destruct (empties fs o Hfs) as (n' & Hn').
    exists (S (n + n')). intros [|f] Hf; [lia|]. specialize (Hn f ltac:(lia)). specialize (Hn' f ltac:(lia)).
    intros w Hw Hr. cbn [print_t]. rewrite Ht. refine (print_object_ok wo d _ _ _ kjs _ w Hw Hr).
    unfold sorted_keys. rewrite <- sort_names. change f_name with json_name.
    assert (Hmem : forall g, In g (sort_f (obj_fields fs)) <-> In g fs /\ f_skip g = false).
    { intro g. split.
      - intro H. apply (Permutation_in _ (sort_perm _)) in H. unfold obj_fields in H. apply filter_In in H as [H1 H2].
        split; auto. now destruct (f_skip g).
      - intros [H1 H2]. apply (Permutation_in _ (Permutation_sym (sort_perm _))). unfold obj_fields. apply filter_In. now rewrite H2. }
    assert (Hsf : forall g, In g sel -> In g (obj_fields fs)).
    { intros g Hg. destruct (Hex g (Hsub g Hg)) as (x & Hx). pose proof (proj1 (Hsel g x (Hsub g Hg) Hx) Hg) as Ho.
      unfold obj_fields. apply filter_In. split; [auto|]. destruct (f_skip g) eqn:E; auto. destruct Ho. now left. }
    apply (oprint_fields _ _ (sort_f (obj_fields fs)) sel kjs).
    + now apply sort_sorted.
    + exact Hso.
    + intros g Hg. apply (Permutation_in _ (Permutation_sym (sort_perm _))). auto.
    + intros g Hg Hns w0 Hw0. apply Hmem in Hg as [Hg Hgs].
      assert (Hgo : In g (obj_fields fs)) by (unfold obj_fields; apply filter_In; now rewrite Hgs).
      destruct (Hex g Hg) as (x & Hx). rewrite (proj1 Hw0), (skip_empty_ok fs g Hnd Hgo), (find_last_ok fs g Hnd Hgo).
      unfold field_of. rewrite Hx. destruct (Hn' g x Hg Hx) as (b & Eb & Hb).
      (* not selected, so omitted *)
      destruct (w_compact wo) eqn:Ec; cbn [negb andb].
      * rewrite Eb. f_equal. apply Hb. destruct b eqn:B; [now apply Hb|]. exfalso. apply Hns. apply (Hsel g x Hg Hx).
        intros [K|[_ K]]; [congruence|]. apply Hb in K. discriminate.
      * destruct (f_skipempty g) eqn:Eg; cbn [negb].
        -- rewrite Eb. f_equal. apply Hb. destruct b eqn:B; [now apply Hb|]. exfalso. apply Hns. apply (Hsel g x Hg Hx).
           intros [K|[_ K]]; [congruence|]. apply Hb in K. discriminate.
        -- exfalso. apply Hns. apply (Hsel g x Hg Hx). intros [K|[[K|K] _]]; congruence.
    + assert (Hk : forall k j, In (k, j) kjs -> str_ok wo d k) by (intros k j Hi; apply (Hj k j Hi)).
      assert (Hgen : forall sel' kjs', Forall2 (fun fd kj => fst kj = json_name fd /\
          exists x, afind (f_key fd) o = Some x /\ PR (print_t f e (f_type fd) x) (snd kj)) sel' kjs' ->
        (forall g, In g sel' -> In g sel) -> (forall k j, In (k, j) kjs' -> In (k, j) kjs) ->
        Forall2 (fun g kj => fst kj = json_name g /\ str_ok wo d (json_name g) /\
          (forall w, inv wo w -> (fun a w => if negb (w_compact (wopt w)) && negb (skip_empty_alias fs a) then Ok false
            else match find_last_alias fs a with
               | Some fd => is_empty f e (f_type fd) (field_of (f_key fd) o)
               | None => Abort end) (json_name g) w = Ok false) /\
          PR ((fun a w => match find_last_alias fs a with
          | Some fd => print_t f e (f_type fd) (field_of (f_key fd) o) w
          | None => Abort end) (json_name g)) (snd kj)) sel' kjs').
      { induction 1 as [|g [k j] sel' kjs' (A & x & Hx & B) Hf2 IHf]; intros Hi1 Hi2; constructor.
        - cbn [fst snd] in *. subst k. assert (Hgs : In g sel) by (apply Hi1; now left).
          pose proof (Hsf g Hgs) as Hgo. split; [reflexivity|]. split; [apply (Hk _ j); apply Hi2; now left|]. split.
          + intros w0 Hw0. rewrite (proj1 Hw0), (skip_empty_ok fs g Hnd Hgo), (find_last_ok fs g Hnd Hgo).
            destruct (negb (w_compact wo) && negb (f_skipempty g)) eqn:Ec; [reflexivity|].
            unfold field_of. rewrite Hx. destruct (Hn' g x (Hsub g Hgs) Hx) as (b & Eb & Hb). rewrite Eb. f_equal.
            destruct b eqn:Bb; auto. exfalso. apply (proj1 (Hsel g x (Hsub g Hgs) Hx) Hgs). right. split; [|now apply Hb].
            destruct (w_compact wo); [now left|]. destruct (f_skipempty g); [now right|discriminate].
          + intros w0 Hw0 Hr0. rewrite (find_last_ok fs g Hnd Hgo). unfold field_of. rewrite Hx. now apply B.
        - apply IHf; intros; [apply Hi1|apply Hi2]; now right. }
      apply Hgen; auto.
  - intros i _ _. exists 0. intros f _. constructor.
  - intros i x l j js _ IH _ IH' Ht Hs. destruct (IH (Ht x (or_introl eq_refl)) (Hs j (or_introl eq_refl))) as (n & Hn).
    destruct (IH' (fun y Hy => Ht y (or_intror Hy)) (fun y Hy => Hs y (or_intror Hy))) as (n' & Hn').
    exists (n + n'). intros f Hf. constructor; [apply Hn; lia|apply Hn'; lia].
  - intros i _ _. exists 0. intros f _. constructor.
  - intros i k x m j kjs _ IH _ IH' Ht Hs. destruct (IH (Ht k x (or_introl eq_refl)) (proj2 (Hs k j (or_introl eq_refl)))) as (n & Hn).
    destruct (IH' (fun k' y Hy => Ht k' y (or_intror Hy)) (fun k' y Hy => Hs k' y (or_intror Hy))) as (n' & Hn').
    exists (n + n'). intros f Hf. constructor; [split; [reflexivity|apply Hn; lia]|apply Hn'; lia].
  - intros o _ _. exists 0. intros f _. constructor.
  - intros o fd x sel j kjs Hx _ IH _ IH' Ht Hs.
    destruct (IH (Ht fd x (or_introl eq_refl) Hx) (proj2 (Hs _ j (or_introl eq_refl)))) as (n & Hn).
    destruct (IH' (fun f' y Hy => Ht f' y (or_intror Hy)) (fun k' y Hy => Hs k' y (or_intror Hy))) as (n' & Hn').
    exists (n + n'). intros f Hf. constructor; [split; [reflexivity|exists x; split; [exact Hx|apply Hn; lia]]|apply Hn'; lia].
Qed.
End Print.
