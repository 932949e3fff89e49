(* PropCfgJson.v - C92: loading a configuration from json. *)
From Coq Require String. Import String.StringSyntax.
From Coq Require Import Permutation.
From Verif Require Import Base Dec SpecJson ModelJson ModelJsonW ModelJsonT ModelConfig SpecConfig ModelConfigStore SpecConfigStore ModelPath SpecPath ProofPath PropConfig PropNode ProofConfigStore PropConfigKey PropConfigStore PropPath ModelCfgJson SpecCfgJson ProofCfgJson.
Local Open Scope outcome_scope.

(* ==== C92 ==== *)
(* Loading a document makes the calls of set() and link() that it says, in its order, reads
   exactly the document, and fails exactly when one of them does (or the document says
   something that is in error). *)
Theorem c92_document : forall (V M : Type) (L : layer V M) (mk : maker V M) (f fuel : nat) (c : cfg V M) (j : json) (rest : list atok),
  (length (toks j) <= fuel)%nat ->
  load_config L mk f fuel c (toks j ++ rest) = (do c' <- obeys L mk f c (says [] j); Ok (c', rest)).
Proof. intros V M L mk f fuel c j rest H. exact (vals_run L mk f j fuel [] c rest H). Qed.
Print Assumptions c92_document.

(* Nothing but a document is loaded. *)
Theorem c92_only_documents : forall (V M : Type) (L : layer V M) (mk : maker V M) (f fuel : nat) (c c' : cfg V M) (ts rest : list atok),
  (length ts <= fuel)%nat -> load_config L mk f fuel c ts = Ok (c', rest) ->
  exists j, ts = toks j ++ rest /\ obeys L mk f c (says [] j) = Ok c'.
Proof.
  intros V M L mk f fuel c c' ts rest Hf H. pose proof H as H0. unfold load_config in H. destruct (next ts) as [t ts1] eqn:En.
  apply run_accepts in H as (t0 & j & -> & E). apply next_some in En as ->. exists j. split; [exact E|].
  rewrite E in H0. rewrite c92_document in H0 by (rewrite E, app_length in Hf; lia).
  destruct (obeys L mk f c (says [] j)); cbn in H0; congruence.
Qed.
Print Assumptions c92_only_documents.

(* ---- names for plain values and lists ---- *)
Section Names.
  Context (max : N) (e : env) (K : kinds) (known : str -> option (nat * val)) (f : nat).
  Notation L := (path_layer max e).
  Notation mk := (root_maker K known).
  Implicit Types (c : cfg view roots) (m : roots) (h : list (cstep view)).
  Hypothesis Hmax : (max < 2 ^ 64)%N.
  Hypothesis Kf : nth_error e (kfloats K) = Some (DList (kfloat K)).
  Hypothesis Ks : nth_error e (kstrs K) = Some (DList (kstr K)).

  Lemma number_dec n : (n < 2 ^ 64)%N -> number (dec n) n.
  Proof. intro H. split; [apply dec_nonempty|]. split; [apply dec_digits|]. split; [apply undec_dec|exact H]. Qed.
  Lemma nth_put (m : roots) r t v w : nth_error m r = Some (t, v) -> nth_error (put_root m r w) r = Some (t, w).
  Proof. apply put_root_same. Qed.
  Lemma put_length (m : roots) r w : length (put_root m r w) = length m.
  Proof. revert r. induction m as [|[t v] m IH]; intros [|r]; cbn; auto. Qed.
  Lemma nth_last (m : roots) x : nth_error (m ++ [x]) (length m) = Some x.
  Proof. rewrite nth_error_app2, Nat.sub_diag by lia. reflexivity. Qed.
  Lemma nth_old (m : roots) x r : (r < length m)%nat -> nth_error (m ++ [x]) r = nth_error m r.
  Proof. intro H. now apply nth_error_app1. Qed.

  Lemma put_item m r tl ti l v : nth_error m r = Some (tl, VList l) -> nth_error e tl = Some (DList ti) -> (N.of_nat (length l) < max)%N ->
    value_set L (m ++ [(ti, v)]) (r, []) [dec (N.of_nat (length l))] (length m, []) = Ok (put_root (m ++ [(ti, v)]) r (VList (l ++ [v]))).
  Proof.
    intros Er Et Hl. assert (Lr : (r < length m)%nat) by (apply nth_error_Some; congruence).
    assert (Er' : nth_error (m ++ [(ti, v)]) r = Some (tl, VList l)) by (now rewrite nth_old).
    unfold value_set. cbn [removelast last]. cbn [lget path_layer]. unfold contents at 1. cbn [fst snd]. rewrite Er'. cbn [part_at vget bind g_whole replace_part app].
    rewrite (put_root_id _ _ _ _ Er'). cbn [lput path_layer]. unfold contents. cbn [fst snd]. rewrite Er', nth_last. cbn [part_at].
    unfold vset1. rewrite Et.
    rewrite (proj2 (index_number _ _) (number_dec (N.of_nat (length l)) ltac:(lia))). cbn [bind].
    assert (G : grow max e ti l (N.of_nat (length l)) = Ok (resize_list e ti l (S (length l)), dval e ti)).
    { apply grow_spec; [exact Hmax|lia|]. cbn [fst snd]. split; [exact Hl|]. rewrite Nat2N.id. split; [reflexivity|].
      unfold resize_list. rewrite nth_error_app2 by (rewrite firstn_length; lia). rewrite firstn_length, Nat.min_r by lia. rewrite Nat.sub_diag.
      replace (S (length l) - length l)%nat with 1%nat by lia. reflexivity. }
    rewrite G. cbn [bind]. unfold assigned. rewrite Nat.eqb_refl. cbn [bind replace_part]. rewrite Nat2N.id, put_resize, firstn_all, Nat.sub_diag. reflexivity.
  Qed.

  Definition one (x : json) : option (atok * nat * val) :=
    match x with
    | JInt z => Some (AInt z, kfloat K, VFloat (show_int z)) | JFloat y => Some (AFloat y, kfloat K, VFloat y)
    | JStr s => Some (AStr s, kstr K, VStr s) | _ => None
    end.
  Lemma items_run r tl ti k h : nth_error e tl = Some (DList ti) -> resolves h k ((r, []) : view) -> (0 < f)%nat -> forall xs m c l,
    inv h m c -> nth_error m r = Some (tl, VList l) -> (N.of_nat (length l + length xs) <= max)%N ->
    Forall (fun x => exists t v, one x = Some (t, ti, v)) xs ->
    exists c', obeys L mk f c (from (fun i x => says (item [k] i) x) (length l) xs) = Ok c' /\ inv h (cmem c') c' /\
      nth_error (cmem c') r = Some (tl, VList (l ++ map value_of xs)) /\ (length m <= length (cmem c'))%nat /\
      forall r', (r' < length m)%nat -> r' <> r -> nth_error (cmem c') r' = nth_error m r'.
  Proof.
    intros Et R Hf. destruct f as [|f']; [lia|]. induction xs as [|x xs IH]; intros m c l I0 Er Hl F.
    - exists c. rewrite (i_mem _ _ _ I0). cbn [from obeys map]. rewrite app_nil_r. split; [reflexivity|]. split; [exact I0|]. split; [exact Er|]. split; [lia|]. intros; reflexivity.
    - inversion F as [|? ? (t & v & Ex) F']; subst. cbn [length] in Hl.
      pose proof (proj2 (i_keys _ _ _ I0 k (r, [])) R) as Ek.
      assert (Lr : (r < length m)%nat) by (apply nth_error_Some; congruence).
      assert (Ss : says (item [k] (length l)) x = [Set_ (item [k] (length l)) t] /\ mscalar mk t m = new_root m ti v /\ value_of x = v).
      { destruct x; try discriminate; cbn in Ex; injection Ex as <- <- <-; auto. }
      destruct Ss as (Ss & Sm & Sv).
      destruct (nothing_below (clinks c) (item [k] (length l))) as (Es & Fl & Pn); [exact (proj1 (i_fine _ _ _ I0))|cbn; lia|].
      set (m1 := m ++ [(ti, v)]). set (m2 := put_root m1 r (VList (l ++ [v]))).
      set (c1 := Cfg (ckeys c) (node_erase (node_get (clinks c) (item [k] (length l))) (item [k] (length l))) m2).
      assert (E1 : obey L mk (S f') c (Set_ (item [k] (length l)) t) = Ok c1).
      { cbn [obey]. rewrite (i_mem _ _ _ I0), Sm. unfold set_to. cbn [fst snd new_root]. cbn [cset item app]. cbn [ckeys]. rewrite Ek. cbn [cmem].
        rewrite (put_item m r tl ti l v Er Et ltac:(lia)). cbn [bind clinks ckeys cmem].
        unfold item in Es. cbn [app] in Es. rewrite Es. cbn [bind fold_left ckeys clinks cmem]. reflexivity. }
      assert (I1 : inv h m2 c1).
      { destruct I0 as [A B C D E1' F1]. split; cbn [ckeys clinks cmem]; auto.
        - destruct A as (A1 & A2). split; [exact Fl|exact A2].
        - intros a b H. apply D. apply Pn. exact H.
        - intros a b d H1 H2. apply (E1' a); apply Pn; assumption.
        - intros a b H1 H2. eapply rch_mono; [|apply F1; eauto]. intros ? ? H. apply Pn. exact H. }
      destruct (IH m2 c1 (l ++ [v])) as (c' & E & I' & Er' & Hlen & Oth); auto.
      { unfold m2. apply nth_put with (v := VList l). unfold m1. now rewrite nth_old. }
      { rewrite app_length. cbn. lia. }
      assert (L2 : length m2 = S (length m)) by (unfold m2, m1; rewrite put_length, app_length; cbn; lia).
      exists c'. cbn [from]. rewrite Ss. cbn [app obeys]. rewrite E1. cbn [bind].
      replace (S (length l)) with (length (l ++ [v])) by (rewrite app_length; cbn; lia).
      split; [exact E|]. split; [exact I'|]. split; [|split; [lia|]].
      + rewrite Er', <- app_assoc. cbn [map app]. now rewrite Sv.
      + intros r' L' N'. rewrite Oth by (auto; lia). unfold m2. rewrite put_root_other by auto. unfold m1. now apply nth_old.
  Qed.

  Lemma target_path t : t <> [] -> ~ In 46%N t -> path_of t dot = Ok [t].
  Proof.
    intros A B. pose proof (c44_print_then_parse dot [t] (Forall_cons _ (conj A B) (Forall_nil _))) as P. rewrite to_string_cons, app_nil_r in P. exact P.
  Qed.

  (* ---- objects of a type ---- *)
  Hypothesis U : unique_names e.
  Lemma value_set_vset m r t v rest comp (a : view) ta x v' : nth_error m r = Some (t, v) -> contents e m a = Some (ta, x) -> fst a <> r ->
    vset max e (rest ++ [comp]) ta x false t v = Ok v' -> value_set L m (r, []) (rest ++ [comp]) a = Ok (put_root m r v').
  Proof.
    intros Er Ea Na Sv.
    assert (Pb : popBack (rest ++ [comp]) = Ok rest) by (unfold popBack; destruct (rest ++ [comp]) eqn:Eq; [destruct rest; discriminate|]; rewrite <- Eq, removelast_last; reflexivity).
    unfold vset in Sv. rewrite Pb, last_last in Sv. cbn [bind] in Sv.
    destruct (vget max e rest false t v) as [g| | | |] eqn:G; try discriminate. cbn [bind] in Sv.
    destruct (get_trim _ _ _ Hmax U _ _ _ G) as (Cg & Tg). rewrite Cg in Sv.
    destruct (vset1 max e comp ta x false (g_type g) (g_val g)) as [w1| | | |] eqn:S1; try discriminate. cbn [bind] in Sv. injection Sv as Sv.
    unfold value_set. rewrite removelast_last, last_last.
    assert (X : (do (w, m1) <- lget L m (r, []) rest; lput L m1 w comp a) = Ok (put_root m r v')); [|destruct (rest ++ [comp]) eqn:Eq; [destruct rest; discriminate|exact X]].
    cbn [lget path_layer]. unfold contents at 1. cbn [fst snd]. rewrite Er. cbn [part_at]. rewrite G. cbn [bind replace_part app].
    cbn [lput path_layer]. unfold contents. cbn [fst snd]. rewrite (put_root_same _ _ _ _ _ Er), (put_root_other _ _ _ _ Na).
    rewrite (part_part_at _ _ _ _ _ _ (trim_part _ _ _ _ _ _ _ Tg)). unfold contents in Ea. rewrite Ea, S1. cbn [bind]. rewrite put_root_put, Sv. reflexivity.
  Qed.

  Lemma trim_replace_same t v p u w : trim max e t v p u w -> replace_part e p w t v = v.
  Proof.
    induction 1 as [t v|t sm i x p u w Et Np H IH|t i l k n x p u w Et Nk Ex Hl Hx H IH|t i m k x p u w Et Em H IH|t fs ini o k i x p u w Et Fi Ek H IH].
    - reflexivity.
    - destruct p as [|k p]; [contradiction|]. now rewrite replace_eq, Et, IH.
    - rewrite replace_eq, Et, (number_undec _ _ Nk), Ex, IH. f_equal. now apply put_same.
    - rewrite replace_eq, Et. assert (Ek : afind k m = Some x) by (rewrite <- Em; apply afind_map_set_same). now rewrite Ek, IH, Em.
    - rewrite replace_eq, Et. apply field_is_named in Fi as (f0 & -> & Ekf & <-). rewrite Ekf, Ek, IH. f_equal. now apply aset_same.
  Qed.

  Lemma set_element tr vr p tl l i k n x : trim max e tr vr p tl (VList l) -> nth_error e tl = Some (DList i) -> number k n -> (n < max)%N ->
    vset max e (p ++ [k]) i x false tr vr = Ok (replace_part e p (VList (firstn (N.to_nat n) l ++ repeat (dval e i) (N.to_nat n - length l) ++ [x])) tr vr).
  Proof.
    intros T Et Nk Hn. assert (Hn64 : (n < 2 ^ 64)%N) by lia.
    set (l' := resize_list e i l (S (N.to_nat n))).
    destruct (nth_error l' (N.to_nat n)) as [y|] eqn:Ey; [|apply nth_error_None in Ey; unfold l' in Ey; rewrite resize_length in Ey; lia].
    assert (Gr : grow max e i l n = Ok (l', y)) by (apply grow_spec; auto).
    assert (G1 : vget max e [k] false tl (VList l) = Ok (Got false i y (VList l'))).
    { rewrite vget_eq, Et, (proj2 (index_number _ _) Nk). cbn [bind]. rewrite Gr. cbn [bind vget in_whole g_const g_type g_val g_whole]. now rewrite put_same. }
    pose proof (get_app max e p [k] Hmax U tr vr) as Ga. rewrite (trim_get _ _ _ _ _ _ _ Hmax T) in Ga. cbn [bind g_type g_val g_whole] in Ga. rewrite G1 in Ga. cbn [bind g_type g_val g_whole in_whole g_const] in Ga.
    rewrite set_is_get by (auto; destruct p; discriminate). rewrite Ga. cbn [bind g_type g_val g_whole]. rewrite Nat.eqb_refl.
    pose proof (trim_replace _ _ _ _ _ _ _ (VList l') T) as T'.
    rewrite (replace_app _ _ _ _ _ _ _ _ (trim_part _ _ _ _ _ _ _ T')), (replace_replace _ _ _ _ _ _ _ _ _ T).
    rewrite replace_eq, Et, (number_undec _ _ Nk), Ey. cbn [replace_part]. unfold l'. now rewrite put_resize.
  Qed.

  Definition scalar (j : json) : Prop := match j with JBool _ | JInt _ | JFloat _ | JStr _ => True | _ => False end.
  (* one value below a name *)
  Lemma set_below r tr k h (Rk : resolves h k ((r, []) : view)) : forall j p comp m c vr vr',
    scalar j -> (0 < f)%nat -> inv h m c -> nth_error m r = Some (tr, vr) -> vset max e (p ++ [comp]) (kind_of K j) (value_of j) false tr vr = Ok vr' ->
    exists c', obeys L mk f c (says (k :: p ++ [comp]) j) = Ok c' /\ inv h (cmem c') c' /\ nth_error (cmem c') r = Some (tr, vr') /\ (length m <= length (cmem c'))%nat /\
      forall r', (r' < length m)%nat -> r' <> r -> nth_error (cmem c') r' = nth_error m r'.
  Proof.
    intros j p comp m c vr vr' Sj Hf I0 Er Sv. destruct f as [|f']; [lia|].
    pose proof (proj2 (i_keys _ _ _ I0 k (r, [])) Rk) as Ek.
    assert (Lr : (r < length m)%nat) by (apply nth_error_Some; congruence).
    assert (Ss : exists t, (forall q, says q j = [Set_ q t]) /\ mscalar mk t m = new_root m (kind_of K j) (value_of j)) by (destruct j; try contradiction; eexists; (split; [intro; reflexivity|reflexivity])).
    destruct Ss as (t & Ss & Sm). rewrite Ss.
    destruct (nothing_below (clinks c) (k :: p ++ [comp])) as (Es & Fl & Pn); [exact (proj1 (i_fine _ _ _ I0))|cbn; rewrite app_length; cbn; lia|].
    set (m1 := m ++ [(kind_of K j, value_of j)]). set (m2 := put_root m1 r vr').
    set (c1 := Cfg (ckeys c) (node_erase (node_get (clinks c) (k :: p ++ [comp])) (k :: p ++ [comp])) m2).
    assert (E1 : obey L mk (S f') c (Set_ (k :: p ++ [comp]) t) = Ok c1).
    { cbn [obey]. rewrite (i_mem _ _ _ I0), Sm. unfold set_to. cbn [fst snd new_root]. cbn [cset]. cbn [ckeys]. rewrite Ek. cbn [cmem]. fold m1.
      rewrite (value_set_vset m1 r tr vr p comp (length m, []) (kind_of K j) (value_of j) vr'); auto.
      - cbn [bind clinks ckeys cmem]. rewrite Es. cbn [bind fold_left ckeys clinks cmem]. reflexivity.
      - unfold m1. now rewrite nth_old.
      - unfold contents, m1. cbn [fst snd]. rewrite nth_last. reflexivity.
      - cbn. lia. }
    exists c1. cbn [obeys]. rewrite E1. cbn [bind]. split; [reflexivity|]. split; [|split; [|split]].
    - destruct I0 as [A B C D E1' F1]. split; cbn [ckeys clinks cmem]; auto.
      + destruct A as (A1 & A2). split; [exact Fl|exact A2].
      + intros a b H. apply D. apply Pn. exact H.
      + intros a b d H1 H2. apply (E1' a); apply Pn; assumption.
      + intros a b H1 H2. eapply rch_mono; [|apply F1; eauto]. intros ? ? H. apply Pn. exact H.
    - cbn [cmem c1]. unfold m2. apply nth_put with (v := vr). unfold m1. now rewrite nth_old.
    - cbn [cmem c1]. unfold m2, m1. rewrite put_length, app_length. lia.
    - intros r' L' N'. cbn [cmem c1]. unfold m2. rewrite put_root_other by auto. unfold m1. now apply nth_old.
  Qed.

  Lemma plain_join p k : plain_name k -> parse_key k = Ok (false, k, []) /\ path_join p k 46%N = Ok (p ++ [k]).
  Proof.
    intros (N1 & N2 & N3 & N4). split.
    - apply (c90_plain_keys k k []); [exact N4|]. auto.
    - apply (c44_join_appends dot p k). exists [k]. split; [|reflexivity]. now apply target_path.
  Qed.

  Lemma opens_get u w k i x x' w' : opens max e u w k i x x' w' -> exists w1, vget max e [k] false u w = Ok (Got false i x w1) /\ replace_part e [k] x' u w1 = w'.
  Proof.
    induction 1 as [t sm i v k u x x' v' Et H (w1 & IH & IH2)|t i l k n x' Et Nk Lm n0|t i m k x' Et|t fs ini o k i x x' Et Fi Ek].
    - eexists. rewrite vget_eq, Et, const_behind_false, IH. split; [reflexivity|]. cbn [in_whole g_whole]. rewrite replace_eq, Et. now rewrite IH2.
    - assert (Hn : (n < 2 ^ 64)%N) by (destruct Nk as (_ & _ & _ & X); exact X).
      assert (Ex : nth_error (resize_list e i l (S n0)) n0 = Some (nth n0 l (dval e i))).
      { destruct (Nat.lt_ge_cases n0 (length l)) as [C|C].
        - apply nth_resize; [now apply nth_error_nth'|lia].
        - unfold resize_list. rewrite nth_error_app2 by (rewrite firstn_length; lia). rewrite firstn_length, Nat.min_r by lia. rewrite nth_overflow by lia.
          rewrite nth_error_repeat by lia. reflexivity. }
      assert (G : grow max e i l n = Ok (resize_list e i l (S n0), nth n0 l (dval e i))) by (apply grow_spec; [exact Hmax|exact Hn|]; cbn [fst snd]; auto).
      eexists. rewrite vget_eq, Et, (proj2 (index_number _ _) Nk). cbn [bind]. rewrite G. cbn [bind vget in_whole g_whole g_const g_type g_val]. split; [reflexivity|].
      rewrite replace_eq, Et, (number_undec _ _ Nk), nth_put_at by (rewrite resize_length; lia). cbn [replace_part]. fold n0. rewrite put_put, put_resize. now rewrite <- ?app_assoc.
    - eexists. rewrite vget_eq, Et. cbn [vget bind in_whole g_whole g_const g_type g_val]. split; [reflexivity|]. rewrite replace_eq, Et, afind_map_set_same. cbn [replace_part]. now rewrite map_set_set.
    - pose proof Fi as Fi0. apply field_is_named in Fi0 as (f0 & Ef & <- & <-). eexists. rewrite vget_eq, Et, Ef, Ek. cbn [vget bind in_whole g_whole g_const g_type g_val]. split; [reflexivity|].
      rewrite replace_eq, Et, Ef, afind_aset_same. cbn [replace_part]. now rewrite aset_aset.
  Qed.

  Scheme fills_rec2 := Minimality for fills Sort Prop with fields_rec2 := Minimality for fields Sort Prop.
  Definition now_is (r : option val) (p : path) (tr : nat) (vr vr1 : val) : val := match r with None => vr | Some w' => replace_part e p w' tr vr1 end.
  Definition says_all (p : path) (l : list (str * json)) : list cstatement := flat_map (fun kj : str * json => says (p ++ [fst kj]) (snd kj)) l.
  Lemma says_object p l : p <> [] -> Forall plain_name (map fst l) -> says p (JObj l) = says_all p l.
  Proof.
    intro Np. induction l as [|[k j] l IH]; intro F; [reflexivity|]. inversion F as [|? ? Pk F']; subst. unfold says_all. cbn [flat_map fst snd].
    fold (says_all p l). rewrite <- IH by exact F'. destruct (plain_join p k Pk) as (A & B). cbn [says flat_map]. rewrite A, B. destruct p; [contradiction|]. reflexivity.
  Qed.
  Lemma says_array k p xs : p <> [] -> says (k :: p) (JArr xs) = says_all (k :: p) (numbered xs).
  Proof.
    intro Np. assert (E : says (k :: p) (JArr xs) = from (fun i x => says (item (k :: p) i) x) 0 xs) by (destruct p; [contradiction|reflexivity]). rewrite E. clear E.
    unfold numbered, says_all. generalize 0%nat. induction xs as [|x xs IH]; intro n; [reflexivity|]. cbn [from length seq map combine flat_map fst snd]. now rewrite IH.
  Qed.

  Lemma fills_run r tr k h (Rk : resolves h k ((r, []) : view)) : (0 < f)%nat -> forall u w j res, fills max e K u w j res -> forall p m c vr vr1,
    (p <> [] \/ exists l, j = JObj l) -> inv h m c -> nth_error m r = Some (tr, vr) -> vget max e p false tr vr = Ok (Got false u w vr1) ->
    exists c', obeys L mk f c (says (k :: p) j) = Ok c' /\ inv h (cmem c') c' /\
      nth_error (cmem c') r = Some (tr, now_is res p tr vr vr1) /\ (length m <= length (cmem c'))%nat /\
      forall r', (r' < length m)%nat -> r' <> r -> nth_error (cmem c') r' = nth_error m r'.
  Proof.
    intros Hf u w j res H.
    induction H as [u w|w j Sj|u w l res Pn H IH|u w xs res H IH|u w|u w k0 j l i x x' w1 res Op H1 IH1 H2 IH2|u w k0 j l i x x' w1 res Op H1 IH1 H2 IH2]
      using fills_rec2 with (P0 := fun u w l res => forall p m c vr vr1,
        inv h m c -> nth_error m r = Some (tr, vr) -> vget max e p false tr vr = Ok (Got false u w vr1) ->
        exists c', obeys L mk f c (says_all (k :: p) l) = Ok c' /\ inv h (cmem c') c' /\
          nth_error (cmem c') r = Some (tr, now_is res p tr vr vr1) /\ (length m <= length (cmem c'))%nat /\
          forall r', (r' < length m)%nat -> r' <> r -> nth_error (cmem c') r' = nth_error m r').
    - intros p m c vr vr1 Np I0 Er T. exists c. rewrite (i_mem _ _ _ I0). cbn [says obeys]. split; [reflexivity|]. split; [exact I0|]. split; [exact Er|]. split; [lia|intros; reflexivity].
    - intros p m c vr vr1 Np I0 Er T. assert (Np' : p <> []) by (destruct Np as [|(l & ->)]; [assumption|contradiction]).
      destruct (exists_last Np') as (p0 & comp & ->).
      assert (Sv : vset max e (p0 ++ [comp]) (kind_of K j) (value_of j) false tr vr = Ok (replace_part e (p0 ++ [comp]) (value_of j) tr vr1)).
      { rewrite set_is_get by auto. rewrite T. cbn [bind g_type g_whole]. now rewrite Nat.eqb_refl. }
      exact (set_below r tr k h Rk j p0 comp m c vr _ Sj Hf I0 Er Sv).
    - intros p m c vr vr1 Np I0 Er T. rewrite says_object by (discriminate || exact Pn). eapply IH; eauto.
    - intros p m c vr vr1 Np I0 Er T. rewrite says_array by (destruct Np as [|(l0 & E)]; [assumption|discriminate]). eapply IH; eauto.
    - intros p m c vr vr1 I0 Er T. exists c. rewrite (i_mem _ _ _ I0). cbn [says_all flat_map obeys]. split; [reflexivity|]. split; [exact I0|]. split; [exact Er|]. split; [lia|intros; reflexivity].
    - intros p m c vr vr1 I0 Er T. destruct (opens_get _ _ _ _ _ _ _ Op) as (w0 & G & _).
      destruct (IH1 (p ++ [k0]) m c vr (replace_part e p w0 tr vr1)) as (c1 & E1 & I1 & Er1 & L1 & O1); auto.
      { left. destruct p; discriminate. }
      { rewrite (get_app max e p [k0] Hmax U), T. cbn [bind g_type g_val g_whole]. rewrite G. reflexivity. }
      cbn [now_is] in Er1. destruct (IH2 p (cmem c1) c1 vr vr1 I1 Er1 T) as (c' & E & I' & Er' & L' & O').
      exists c'. unfold says_all. cbn [flat_map fst snd]. fold (says_all (k :: p) l). rewrite obeys_app. cbn [app]. rewrite E1. cbn [bind]. split; [exact E|]. split; [exact I'|]. split; [exact Er'|]. split; [lia|].
      intros r' L2 N2. rewrite O' by (auto; lia). now apply O1.
    - intros p m c vr vr1 I0 Er T. destruct (opens_get _ _ _ _ _ _ _ Op) as (w0 & G & R0).
      destruct (IH1 (p ++ [k0]) m c vr (replace_part e p w0 tr vr1)) as (c1 & E1 & I1 & Er1 & L1 & O1); auto.
      { left. destruct p; discriminate. }
      { rewrite (get_app max e p [k0] Hmax U), T. cbn [bind g_type g_val g_whole]. rewrite G. reflexivity. }
      pose proof (proj2 (get_trim _ _ _ Hmax U _ _ _ T)) as T1. cbn [g_type g_val g_whole] in T1.
      assert (Rp : replace_part e (p ++ [k0]) x' tr (replace_part e p w0 tr vr1) = replace_part e p w1 tr vr1).
      { rewrite (replace_app _ _ _ _ _ _ _ _ (trim_part _ _ _ _ _ _ _ (trim_replace _ _ _ _ _ _ _ w0 T1))), R0. now rewrite (replace_replace _ _ _ _ _ _ _ _ _ T1). }
      cbn [now_is] in Er1. rewrite Rp in Er1.
      pose proof (trim_get _ _ _ _ _ _ _ Hmax (trim_replace _ _ _ _ _ _ _ w1 T1)) as T2.
      destruct (IH2 p (cmem c1) c1 _ _ I1 Er1 T2) as (c' & E & I' & Er' & L' & O').
      exists c'. unfold says_all. cbn [flat_map fst snd]. fold (says_all (k :: p) l). rewrite obeys_app. cbn [app]. rewrite E1. cbn [bind]. split; [exact E|]. split; [exact I'|]. split; [|split; [lia|]].
      + rewrite Er'. destruct res as [w2|]; cbn [now_is]; [|reflexivity]. now rewrite (replace_replace _ _ _ _ _ _ _ _ _ T1).
      + intros r' L2 N2. rewrite O' by (auto; lia). now apply O1.
  Qed.

  (* what the entries became *)
  Definition became (m : roots) (x : entry) (s : cstep view) : Prop :=
    match x, s with
    | Name k j, SetKey k' v => k = k' /\ snd v = [] /\ nth_error m (fst v) = Some (kind_of K j, value_of j)
    | Object k ty fl, SetKey k' v => k = k' /\ snd v = [] /\ (fst v < length m)%nat /\ (exists t w, known ty = Some (t, w)) /\
        forall t w w', known ty = Some (t, w) -> fills max e K t w (JObj fl) w' -> nth_error m (fst v) = Some (t, match w' with Some w1 => w1 | None => w end)
    | Alias k t, LinkKey k' t' => k = k' /\ t = t'
    | _, _ => False
    end.
  Definition kept (m m' : roots) := (length m <= length m')%nat /\ forall r, (r < length m)%nat -> nth_error m' r = nth_error m r.
  Lemma became_kept m m' x s : kept m m' -> became m x s -> became m' x s.
  Proof.
    intros (Lm & Kp). destruct x as [k j|k ty l|k t], s as [k' v|k' t']; cbn; auto.
    - intros (-> & A & B). repeat split; auto. rewrite Kp; auto. apply nth_error_Some. congruence.
    - intros (-> & A & B & Ex & C). repeat split; auto; [lia|]. intros t w w' H1 H2. rewrite Kp by exact B. eauto.
  Qed.
  Lemma became_defines m x s : became m x s -> defines s = entry_name x.
  Proof. destruct x, s; cbn; intuition. Qed.

  Lemma plain_key k : plain_name k -> parse_key k = Ok (false, k, []) /\ path_join [] k 46%N = Ok [k].
  Proof.
    intros (N1 & N2 & N3 & N4). split.
    - apply (c90_plain_keys k k []); [exact N4|]. auto.
    - apply (c44_join_appends dot [] k [k]). exists [k]. split; [|reflexivity]. now apply target_path.
  Qed.
  Lemma alias_key k : k <> [] -> ~ In 33%N k -> ~ In 46%N k -> parse_key (35%N :: k) = Ok (true, k, []) /\ path_join [] k 46%N = Ok [k].
  Proof.
    intros N1 N2 N3. split; [now apply c90_links|].
    apply (c44_join_appends dot [] k [k]). exists [k]. split; [|reflexivity]. now apply target_path.
  Qed.


  Definition entry_says (x : entry) : list cstatement :=
    match x with Name k j => says [k] j | Object k ty l => Typed_ [k] ty :: says [k] (JObj l) | Alias k t => [Link_ [k] t] end.
  Lemma typed_key k ty : plain_name k -> parse_key (k ++ 33%N :: ty) = Ok (false, k, ty).
  Proof.
    intros (N1 & N2 & N3 & N4). apply (c90_plain_keys (k ++ 33%N :: ty) k ty).
    - destruct k as [|b k]; [contradiction|]. intros t E. injection E as -> _. now apply (N4 k).
    - split; [exact N1|]. split; [exact N2|]. right. reflexivity.
  Qed.
  Lemma doc_says l : Forall (plain_entry max e K known) l -> says [] (JObj (map entry_field l)) = flat_map entry_says l.
  Proof.
    induction l as [|x l IH]; intro F; [reflexivity|]. inversion F as [|? ? Fx Fl]; subst.
    cbn [flat_map]. rewrite <- IH by exact Fl. cbn [says map flat_map]. f_equal. destruct x as [k j|k ty fl|k t]; cbn [entry_field entry_says].
    - destruct Fx as (A & _). destruct (plain_key k A) as (-> & ->). reflexivity.
    - destruct Fx as (A & B & _). rewrite (typed_key k ty A). destruct (plain_key k A) as (_ & ->). destruct ty; [contradiction|]. reflexivity.
    - destruct Fx as (A & B & C & _). destruct (alias_key k A B C) as (-> & ->). reflexivity.
  Qed.

  Lemma entry_run m h c x : inv h m c -> plain_entry max e K known x -> ~ In (entry_name x) (map defines h) -> NoDup (map defines h) -> (length h < f)%nat ->
    exists c' s, obeys L mk f c (entry_says x) = Ok c' /\ inv (h ++ [s]) (cmem c') c' /\ became (cmem c') x s /\ kept m (cmem c').
  Proof.
    intros I0 P Nn ND Hf.
    assert (ND' : forall s, defines s = entry_name x -> NoDup (map defines (h ++ [s]))).
    { intros s Es. rewrite map_app. cbn [map]. rewrite Es. eapply (Permutation_NoDup (l := entry_name x :: map defines h)); [|constructor; auto].
      apply Permutation_cons_append. }
    destruct x as [k j|k ty fl|k t]; cbn [entry_name entry_says plain_entry] in *.
    - destruct P as (Pk & Pj).
      assert (S1 : forall t v, exists c', set_to L f c [k] (new_root m t v) = Ok c' /\ @inv view roots (h ++ [SetKey k (length m, [])]) (m ++ [(t, v)]) c').
      { intros t v. destruct (inv_step L h (m ++ [(t, v)]) (Cfg (ckeys c) (clinks c) (m ++ [(t, v)])) f (SetKey k (length m, [])) (inv_mem _ _ _ _ I0) (ND' (SetKey k _) eq_refl) Hf) as (c' & E & I').
        exists c'. split; [exact E|exact I']. }
      assert (Kp : forall x, kept m (m ++ [x])) by (intro y; split; [rewrite app_length; lia|intros r Hr; now apply nth_old]).
      assert (Sc : forall tk, (forall p, says p j = [Set_ p tk]) -> mscalar mk tk m = new_root m (kind_of K j) (value_of j) ->
        exists c' s, obeys L mk f c (says [k] j) = Ok c' /\ inv (h ++ [s]) (cmem c') c' /\ became (cmem c') (Name k j) s /\ kept m (cmem c')).
      { intros tk Es Em. destruct (S1 (kind_of K j) (value_of j)) as (c' & E & I'). exists c', (SetKey k (length m, [])). rewrite Es. cbn [obeys obey].
        rewrite (i_mem _ _ _ I0), Em, E. cbn [bind]. rewrite (i_mem _ _ _ I'). split; [reflexivity|]. split; [exact I'|]. split; [cbn; rewrite nth_last; auto|]. auto. }
      destruct j as [|b|z|y|s|l|l]; cbn in Pj; try contradiction; try (eapply Sc; [intro; reflexivity|reflexivity]).
      destruct Pj as (Nl & Ll & Hk). clear Sc.
      assert (A : exists b, kind_of K (JArr l) = (if b : bool then kstrs K else kfloats K) /\ nth_error e (kind_of K (JArr l)) = Some (DList (if b then kstr K else kfloat K)) /\
        says [k] (JArr l) = Array_ [k] b :: from (fun i x => says (item [k] i) x) 0 l /\ Forall (fun x => exists t v, one x = Some (t, if b then kstr K else kfloat K, v)) l).
      { destruct Hk as [Hk|Hk]; [exists false|exists true]; (split; [|split; [|split]]); try (destruct l as [|x l]; [contradiction|]; inversion Hk; subst; destruct x; try contradiction; try reflexivity; assumption);
          (eapply Forall_impl; [|exact Hk]; intros x Hx; destruct x; try contradiction; cbn; eauto). }
      destruct A as (b & Ea & Et & Es & Fa).
      destruct (S1 (kind_of K (JArr l)) (VList [])) as (c1 & E1 & I1). rewrite Es. cbn [obeys obey].
      assert (Em : marray mk b m = new_root m (kind_of K (JArr l)) (VList [])) by (rewrite Ea; reflexivity).
      rewrite (i_mem _ _ _ I0), Em, E1. cbn [bind].
      assert (Rk : resolves (h ++ [SetKey k (length m, [])]) k ((length m, []) : view)) by (constructor; apply in_or_app; right; now left).
      destruct (items_run (length m) (kind_of K (JArr l)) _ k (h ++ [SetKey k (length m, [])]) Et Rk ltac:(lia)
        l (m ++ [(kind_of K (JArr l), VList [])]) c1 [] I1 (nth_last _ _) ltac:(cbn; lia) Fa) as (c' & E & I' & Er & Hlen & Oth).
      exists c', (SetKey k (length m, [])). split; [exact E|]. split; [exact I'|]. split; [cbn; rewrite Er; auto|]. rewrite app_length in *. cbn in Hlen. split; [lia|].
      intros r Hr. rewrite Oth by (cbn; lia). now apply nth_old.
    - destruct P as (Pk & Nt & t & v & w & Ek & Fw).
      assert (S1 : exists c', set_to L f c [k] (new_root m t v) = Ok c' /\ @inv view roots (h ++ [SetKey k (length m, [])]) (m ++ [(t, v)]) c').
      { destruct (inv_step L h (m ++ [(t, v)]) (Cfg (ckeys c) (clinks c) (m ++ [(t, v)])) f (SetKey k (length m, [])) (inv_mem _ _ _ _ I0) (ND' (SetKey k _) eq_refl) Hf) as (c' & E & I').
        exists c'. split; [exact E|exact I']. }
      destruct S1 as (c1 & E1 & I1).
      assert (Rk : resolves (h ++ [SetKey k (length m, [])]) k ((length m, []) : view)) by (constructor; apply in_or_app; right; now left).
      assert (G : forall w', fills max e K t v (JObj fl) w' -> exists c', obeys L mk f c1 (says [k] (JObj fl)) = Ok c' /\ inv (h ++ [SetKey k (length m, [])]) (cmem c') c' /\
        nth_error (cmem c') (length m) = Some (t, match w' with Some w1 => w1 | None => v end) /\ (length (m ++ [(t, v)]) <= length (cmem c'))%nat /\
        forall r', (r' < length (m ++ [(t, v)]))%nat -> r' <> length m -> nth_error (cmem c') r' = nth_error (m ++ [(t, v)]) r').
      { intros w' Fw'. exact (fills_run (length m) t k _ Rk ltac:(lia) t v (JObj fl) w' Fw' [] (m ++ [(t, v)]) c1 v v (or_intror (ex_intro _ fl eq_refl)) I1 (nth_last _ _) eq_refl). }
      destruct (G w Fw) as (c' & E & I' & Er & Hlen & Oth). cbn [obeys obey]. rewrite (i_mem _ _ _ I0). cbn [mtype root_maker]. rewrite Ek. cbn [bind]. rewrite E1. cbn [bind].
      rewrite app_length in *. cbn in Hlen.
      exists c', (SetKey k (length m, [])). split; [exact E|]. split; [exact I'|]. split.
      + cbn. repeat split; [lia|eauto|]. intros t2 v2 w2 Ek2 F2. rewrite Ek in Ek2. injection Ek2 as <- <-. destruct (G w2 F2) as (c2 & E2 & _ & Er2 & _). rewrite E in E2. injection E2 as <-. exact Er2.
      + split; [lia|]. intros r Hr. rewrite Oth by (cbn; lia). now apply nth_old.
    - destruct P as (_ & _ & _ & Nt & Dt). cbn [obeys obey]. rewrite target_path by auto. cbn [bind].
      destruct (inv_step L h m c f (LinkKey k t) I0 (ND' (LinkKey k t) eq_refl) Hf) as (c' & E & I').
      exists c', (LinkKey k t). match goal with |- bind ?x _ = _ /\ _ => replace x with (Ok c') by (symmetry; exact E) end. cbn [bind]. rewrite (i_mem _ _ _ I'). split; [reflexivity|]. split; [exact I'|]. split; [now split|]. split; [lia|].
      intros r Hr. reflexivity.
  Qed.

  Lemma NoDup_left {A} (a b : list A) : NoDup (a ++ b) -> NoDup a.
  Proof. induction a as [|x a IH]; intro H; [constructor|]. inversion H; subst. constructor; [intro X; apply H2, in_or_app; now left|auto]. Qed.
  Lemma entries_run l : forall m h c, inv h m c -> Forall (plain_entry max e K known) l -> NoDup (map defines h ++ map entry_name l) -> (length h + length l <= f)%nat ->
    exists c' h', obeys L mk f c (flat_map entry_says l) = Ok c' /\ inv (h ++ h') (cmem c') c' /\ Forall2 (became (cmem c')) l h' /\ kept m (cmem c').
  Proof.
    induction l as [|x l IH]; intros m h c I0 F ND Hf.
    - exists c, []. rewrite (i_mem _ _ _ I0). cbn [flat_map obeys]. rewrite app_nil_r. split; [reflexivity|]. split; [exact I0|]. split; [constructor|]. split; [lia|intros r Hr; reflexivity].
    - inversion F as [|? ? Fx Fl]; subst. cbn [map length] in *.
      assert (ND1 : NoDup (map defines h)) by (apply NoDup_left in ND; exact ND).
      assert (Nx : ~ In (entry_name x) (map defines h)). { intro H. apply NoDup_remove_2 in ND. apply ND. apply in_or_app. now left. }
      destruct (entry_run m h c x I0 Fx Nx ND1 ltac:(lia)) as (c1 & s & E1 & I1 & B1 & L1 & K1).
      destruct (IH (cmem c1) (h ++ [s]) c1 I1 Fl) as (c' & h' & E & I' & B' & L' & K').
      { rewrite map_app. cbn [map]. rewrite (became_defines _ _ _ B1), <- app_assoc. exact ND. }
      { rewrite app_length. cbn. lia. }
      exists c', (s :: h'). cbn [flat_map]. rewrite obeys_app, E1. cbn [bind]. split; [exact E|].
      rewrite <- app_assoc in I'. split; [exact I'|]. split; [constructor; [eapply became_kept; [split; [exact L'|exact K']|exact B1]|exact B']|]. split; [lia|].
      intros r Hr. rewrite K' by lia. now apply K1.
  Qed.
End Names.

(* A document whose keys are names for plain values and for lists of them, for objects of a type,
   and other names for names, in any order: afterwards a name is there exactly if it stands for
   something, and it is that: a new object with the value, numbers as doubles; of an object of
   a type the fields that are named have the values given, the others those they are made with. *)
Theorem c92_names : forall (max : N) (e : env) (K : kinds) (known : str -> option (nat * val)) (l : list entry) (m : roots) (f fuel : nat) (rest : list atok),
  (max < 2 ^ 64)%N -> unique_names e -> nth_error e (kfloats K) = Some (DList (kfloat K)) -> nth_error e (kstrs K) = Some (DList (kstr K)) ->
  Forall (plain_entry max e K known) l -> NoDup (map entry_name l) -> (length l <= f)%nat ->
  let doc := JObj (map entry_field l) in
  (length (toks doc) <= fuel)%nat ->
  exists c, load_config (path_layer max e) (root_maker K known) f fuel (cempty m) (toks doc ++ rest) = Ok (c, rest) /\
    (forall k x, stands max e K known l k x -> exists v, cindex (path_layer max e) c [k] = Ok (v, c) /\ contents e (cmem c) v = Some x) /\
    (forall k, (~ exists x, stands max e K known l k x) -> cindex (path_layer max e) c [k] = Abort /\ ccount (path_layer max e) c [k] = Ok false) /\
    (forall k v, cindex (path_layer max e) c [k] = Ok (v, c) -> exists x, stands max e K known l k x) /\
    (forall r, (r < length m)%nat -> nth_error (cmem c) r = nth_error m r).
Proof.
  intros max e K known l m f fuel rest Hm U Kf Ks F ND Hf doc Hfuel.
  destruct (entries_run max e K known f Hm Kf Ks U l m [] (cempty m) (inv_init m) F ND Hf) as (c & h & E & I0 & B & _ & Kp).
  rewrite <- (doc_says max e K known) in E by exact F. exists c. rewrite c92_document by exact Hfuel. fold doc in E. rewrite E. split; [reflexivity|]. cbn [app] in I0.
  assert (R0 : forall x, In x l -> exists s, In s h /\ became max e K known (cmem c) x s).
  { clear - B. induction B as [|x s l h Bx B IH]; intros y H; [contradiction|]. destruct H as [->|H]; [exists s; split; [now left|exact Bx]|]. destruct (IH y H) as (s' & A & A2). exists s'. split; [now right|exact A2]. }
  assert (R00 : forall s, In s h -> exists x, In x l /\ became max e K known (cmem c) x s).
  { clear - B. induction B as [|x s l h Bx B IH]; intros y H; [contradiction|]. destruct H as [->|H]; [exists x; split; [now left|exact Bx]|]. destruct (IH y H) as (s' & A & A2). exists s'. split; [now right|exact A2]. }
  assert (R1 : forall k x, stands max e K known l k x -> exists v, resolves h k v /\ snd v = [] /\ nth_error (cmem c) (fst v) = Some x).
  { intros k x H. induction H as [k j H|k ty fl t v w H Ek Fw|k t x H _ (v & A & A2 & A3)].
    - destruct (R0 _ H) as ([k' v|] & A & Bx); [|contradiction]. destruct Bx as (<- & A2 & A3). exists v. split; [now constructor|auto].
    - destruct (R0 _ H) as ([k' v'|] & A & Bx); [|contradiction]. destruct Bx as (<- & A2 & _ & _ & A3). exists v'. split; [now constructor|]. eauto.
    - destruct (R0 _ H) as ([|k' t'] & A' & Bx); [contradiction|]. destruct Bx as (<- & <-). exists v. split; [eapply res_link; eauto|auto]. }
  assert (R2 : forall k v, resolves h k v -> exists x, stands max e K known l k x).
  { intros k v H. induction H as [k v H|k t v H _ (x & A)].
    - destruct (R00 _ H) as ([k' j|k' ty fl|] & A & Bx); [| |contradiction].
      + destruct Bx as (-> & _). eexists. eapply stands_name; exact A.
      + destruct Bx as (-> & _). pose proof (proj1 (Forall_forall _ _) F _ A) as (_ & _ & t & v' & w & Ek & Fw). eexists. eapply stands_object; eauto.
    - destruct (R00 _ H) as ([| |k' t'] & A' & Bx); [contradiction..|]. destruct Bx as (-> & ->). exists x. eapply stands_alias; eauto. }
  split; [|split; [|split; [|exact Kp]]].
  - intros k x H. destruct (R1 k x H) as ([r p] & A & A2 & A3). cbn [fst snd] in *. subst p. exists (r, []).
    apply (i_keys _ _ _ I0) in A. cbn [cindex]. rewrite A. split; [reflexivity|]. unfold contents. cbn [fst snd]. rewrite A3. destruct x. reflexivity.
  - intros k H. cbn [cindex ccount]. destruct (afind k (ckeys c)) as [v|] eqn:Ek; [|auto]. exfalso. apply H. apply (i_keys _ _ _ I0) in Ek. eauto.
  - intros k v H. cbn [cindex] in H. destruct (afind k (ckeys c)) as [v'|] eqn:Ek; [|discriminate]. apply (i_keys _ _ _ I0) in Ek. eauto.
Qed.
Print Assumptions c92_names.

(* A name with a type that is not there is an error, whatever its value is. *)
Theorem c92_unknown_types : forall (max : N) (e : env) (K : kinds) (known : str -> option (nat * val)) (k ty : str) (j : json) (l : list (str * json))
    (c : cfg view roots) (f fuel : nat) (rest : list atok),
  plain_name k -> ty <> [] -> known ty = None ->
  let doc := JObj ((k ++ 33%N :: ty, j) :: l) in
  (length (toks doc) <= fuel)%nat ->
  load_config (path_layer max e) (root_maker K known) f fuel c (toks doc ++ rest) = Abort.
Proof.
  intros max e K known k ty j l c f fuel rest Pk Nt Ek doc Hf. rewrite c92_document by exact Hf. unfold doc. cbn [says flat_map].
  rewrite (typed_key k ty Pk). destruct (plain_key k Pk) as (_ & ->). destruct ty; [contradiction|]. cbn [app obeys obey root_maker mtype]. now rewrite Ek.
Qed.
Print Assumptions c92_unknown_types.

(* ... so the order in which it says so does not matter *)
Theorem c92_order_irrelevant : forall (max : N) (e : env) (K : kinds) (known : str -> option (nat * val)) (l1 l2 : list entry) (m : roots) (f fuel : nat),
  (max < 2 ^ 64)%N -> unique_names e -> nth_error e (kfloats K) = Some (DList (kfloat K)) -> nth_error e (kstrs K) = Some (DList (kstr K)) ->
  Forall (plain_entry max e K known) l1 -> NoDup (map entry_name l1) -> Permutation l1 l2 -> (length l1 <= f)%nat ->
  (length (toks (JObj (map entry_field l1))) <= fuel)%nat -> (length (toks (JObj (map entry_field l2))) <= fuel)%nat ->
  exists c1 c2,
    load_config (path_layer max e) (root_maker K known) f fuel (cempty m) (toks (JObj (map entry_field l1))) = Ok (c1, []) /\
    load_config (path_layer max e) (root_maker K known) f fuel (cempty m) (toks (JObj (map entry_field l2))) = Ok (c2, []) /\
    forall k, (exists v1 v2 x, cindex (path_layer max e) c1 [k] = Ok (v1, c1) /\ cindex (path_layer max e) c2 [k] = Ok (v2, c2) /\
                 contents e (cmem c1) v1 = Some x /\ contents e (cmem c2) v2 = Some x) \/
              (cindex (path_layer max e) c1 [k] = Abort /\ cindex (path_layer max e) c2 [k] = Abort).
Proof.
  intros max e K known l1 l2 m f fuel Hm U Kf Ks F ND P Hf H1 H2.
  assert (F2 : Forall (plain_entry max e K known) l2) by (eapply Permutation_Forall; eauto).
  assert (ND2 : NoDup (map entry_name l2)) by (eapply Permutation_NoDup; [apply Permutation_map; exact P|exact ND]).
  destruct (c92_names max e K known l1 m f fuel [] Hm U Kf Ks F ND Hf H1) as (c1 & E1 & A1 & B1 & D1 & _).
  destruct (c92_names max e K known l2 m f fuel [] Hm U Kf Ks F2 ND2 ltac:(now rewrite <- (Permutation_length P)) H2) as (c2 & E2 & A2 & B2 & _ & _).
  rewrite app_nil_r in E1, E2. exists c1, c2. split; [exact E1|]. split; [exact E2|]. intro k.
  assert (St : forall l l' x, Permutation l l' -> stands max e K known l k x -> stands max e K known l' k x).
  { clear. intros l l' j P H. induction H as [k j H|k ty fl t v w H Ek Fw|k t j H _ IH]; [constructor|eapply stands_object; eauto|eapply stands_alias; [|exact IH]]; eapply Permutation_in; eauto. }
  destruct (afind k (ckeys c1)) as [v|] eqn:Ek1.
  - left. assert (X : cindex (path_layer max e) c1 [k] = Ok (v, c1)) by (cbn [cindex]; now rewrite Ek1).
    destruct (D1 k v X) as (x & H). destruct (A1 k x H) as (v1 & X1 & Y1). destruct (A2 k x (St _ _ _ P H)) as (v2 & X2 & Y2). exists v1, v2, x. auto.
  - right. assert (N1 : ~ exists x, stands max e K known l1 k x).
    { intros (x & H). destruct (A1 k x H) as (v1 & X1 & _). cbn [cindex] in X1. rewrite Ek1 in X1. discriminate. }
    split; [exact (proj1 (B1 k N1))|]. apply B2. intros (x & H). apply N1. exists x. exact (St _ _ _ (Permutation_sym P) H).
Qed.
Print Assumptions c92_order_irrelevant.

Definition fld_ (k : str) (t : nat) : field := mkF k t false [] false.
Definition le_ : env := [DBool; DFloat true; DStr; DList 1; DList 2;
  DObj [fld_ (lit "x") 1; fld_ (lit "v") 3; fld_ (lit "b") 0; fld_ (lit "ps") 6; fld_ (lit "m") 7; fld_ (lit "q") 8] [];
  DList 9; DMap 1; DPtr true 9; DObj [fld_ (lit "y") 1; fld_ (lit "z") 1] [(lit "y", VFloat (lit "0")); (lit "z", VFloat (lit "2"))]].
Definition yz_ (y z : str) : val := VObj [(lit "y", VFloat y); (lit "z", VFloat z)].
Definition thing_ (x : str) (v ps : list val) (m : list (str * val)) (q : val) : val :=
  VObj [(lit "x", VFloat x); (lit "v", VList v); (lit "b", VBool true); (lit "ps", VList ps); (lit "m", VMap m); (lit "q", VPtr (Some q))].
Definition new_ : val := thing_ (lit "0") [VFloat (lit "3"); VFloat (lit "4")] [] [(lit "k", VFloat (lit "1"))] (yz_ (lit "0") (lit "2")).
Definition lk_ : kinds := Kinds 0 1 2 3 4.
Definition known_ (s : str) : option (nat * val) :=
  if str_eqb s (lit "t") then Some (5%nat, new_) else if str_eqb s (lit "vec") then Some (3%nat, VList []) else None.
Definition loads (j : json) : outcome (cfg view roots * list atok) :=
  load_config (path_layer 1000 le_) (root_maker lk_ known_) 9 99 (cempty []) (toks j).
(* what each of the names is afterwards *)
Definition reads (ks : list str) (x : outcome (cfg view roots * list atok)) : outcome (list (option val)) :=
  do (c, _) <- x;
  Ok (map (fun k => match cindex (path_layer 1000 le_) c [k] with Ok (v, _) => match contents le_ (cmem c) v with Some (_, w) => Some w | None => None end | _ => None end) ks).

(* the fields that are named have the last value given, the list is the list given, elements
   that are not there yet are new ones *)
Definition doc_ : list (str * json) :=
  [(lit "x", JInt 7); (lit "v", JArr [JInt 5]); (lit "ps", JArr [JObj [(lit "y", JInt 1)]; JNull; JObj [(lit "z", JInt 3)]]); (lit "m", JObj [(lit "n", JInt 4)]);
   (lit "q", JObj [(lit "z", JInt 9)]); (lit "b", JNull); (lit "x", JInt 8)].
Definition made_ : val := thing_ (lit "8") [VFloat (lit "5")] [yz_ (lit "1") (lit "2"); yz_ (lit "0") (lit "2"); yz_ (lit "0") (lit "3")]
  [(lit "k", VFloat (lit "1")); (lit "n", VFloat (lit "4"))] (yz_ (lit "0") (lit "9")).
Lemma plain_ k : In k [lit "x"; lit "v"; lit "ps"; lit "m"; lit "q"; lit "b"; lit "y"; lit "z"; lit "n"] -> plain_name k.
Proof. cbn. intros [<-|[<-|[<-|[<-|[<-|[<-|[<-|[<-|[<-|[]]]]]]]]]]; (repeat split; [discriminate|cbn; intuition discriminate|cbn; intuition discriminate|intros s H; discriminate]). Qed.
Ltac in_ := (left; reflexivity) + (right; in_).
Ltac field_is_ := split; [cbn; repeat constructor; cbn; intuition discriminate|eexists; split; [in_|split; reflexivity]].
Ltac field_ := eapply open_field; [reflexivity|field_is_|reflexivity].
Ltac plains_ := repeat constructor; (apply plain_; cbn; auto 12).
Ltac int_ := apply (fill_scalar 1000 le_ lk_ _ (JInt _)); exact I.
Lemma made_fills : fills 1000 le_ lk_ 5 new_ (JObj doc_) (Some made_).
Proof.
  enough (H : exists w, fields 1000 le_ lk_ 5 new_ doc_ (Some w) /\ w = made_) by (destruct H as (w & H & <-); apply fill_object; [plains_|exact H]).
  eexists. split; [|shelve].
  eapply (fields_set 1000 le_ lk_ _ _ _ _ _ _ _ _ _ (Some _)); [field_|int_|].
  eapply (fields_set 1000 le_ lk_ _ _ _ _ _ _ _ _ _ (Some _)); [field_| |].
  { apply fill_array. eapply (fields_set 1000 le_ lk_ _ _ _ _ _ _ _ _ _ None); [apply (open_element 1000 le_ 3 1 _ (dec 0) 0%N); [reflexivity|now apply number_dec|reflexivity]|int_|constructor]. }
  eapply (fields_set 1000 le_ lk_ _ _ _ _ _ _ _ _ _ (Some _)); [field_| |].
  { apply fill_array. eapply (fields_set 1000 le_ lk_ _ _ _ _ _ _ _ _ _ (Some _)); [apply (open_element 1000 le_ 6 9 _ (dec 0) 0%N); [reflexivity|now apply number_dec|reflexivity]| |].
    - apply fill_object; [plains_|]. eapply (fields_set 1000 le_ lk_ _ _ _ _ _ _ _ _ _ None); [field_|int_|constructor].
    - eapply fields_skip; [apply (open_element 1000 le_ 6 9 _ (dec 1) 1%N (VBool true)); [reflexivity|now apply number_dec|reflexivity]|constructor|].
      eapply (fields_set 1000 le_ lk_ _ _ _ _ _ _ _ _ _ None); [apply (open_element 1000 le_ 6 9 _ (dec 2) 2%N); [reflexivity|now apply number_dec|reflexivity]| |constructor].
      apply fill_object; [plains_|]. eapply (fields_set 1000 le_ lk_ _ _ _ _ _ _ _ _ _ None); [field_|int_|constructor]. }
  eapply (fields_set 1000 le_ lk_ _ _ _ _ _ _ _ _ _ (Some _)); [field_| |].
  { apply fill_object; [plains_|]. eapply (fields_set 1000 le_ lk_ _ _ _ _ _ _ _ _ _ None); [apply (open_value 1000 le_ 7 1); reflexivity|int_|constructor]. }
  eapply (fields_set 1000 le_ lk_ _ _ _ _ _ _ _ _ _ (Some _)); [field_| |].
  { apply fill_object; [plains_|]. eapply (fields_set 1000 le_ lk_ _ _ _ _ _ _ _ _ _ None); [eapply open_pointee; [reflexivity|field_]|int_|constructor]. }
  eapply fields_skip; [eapply (open_field 1000 le_ _ _ _ _ _ _ _ (VBool true)); [reflexivity|field_is_|reflexivity]|constructor|].
  eapply (fields_set 1000 le_ lk_ _ _ _ _ _ _ _ _ _ None); [field_|int_|constructor].
  Unshelve. vm_compute. reflexivity.
Qed.

Example c92_names_ex : let l := [Alias (lit "l") (lit "m"); Alias (lit "m") (lit "a"); Name (lit "a") (JInt 1); Name (lit "xs") (JArr [JInt (-1); JFloat (lit "2.5")]); Alias (lit "ys") (lit "xs");
    Name (lit "s") (JArr [JStr (lit "u")]); Alias (lit "p") (lit "o"); Object (lit "o") (lit "t") doc_; Alias (lit "z") (lit "none")] in
  unique_names le_ /\ Forall (plain_entry 1000 le_ lk_ known_) l /\ NoDup (map entry_name l) /\ (length (toks (JObj (map entry_field l))) <= 99)%nat /\ stands 1000 le_ lk_ known_ l (lit "l") (1%nat, VFloat (lit "1")) /\
  stands 1000 le_ lk_ known_ l (lit "p") (5%nat, made_) /\
  reads [lit "l"; lit "ys"; lit "s"; lit "p"; lit "z"] (loads (JObj (map entry_field l))) =
    Ok [Some (VFloat (lit "1")); Some (VList [VFloat (lit "-1"); VFloat (lit "2.5")]); Some (VList [VStr (lit "u")]); Some made_; None].
Proof.
  cbv zeta. split; [|split; [|split; [|split; [|split; [|split]]]]].
  - intros j fs ini H. do 10 (destruct j as [|j]; [cbn in H; try discriminate; injection H as <- _; cbn; repeat constructor; cbn; intuition discriminate|]); destruct j; discriminate.
  - repeat match goal with
    | |- Forall _ [] => constructor
    | |- Forall _ (_ :: _) => constructor; [cbn; unfold plain_name; repeat match goal with
        | |- _ /\ _ => split | |- _ <> _ => discriminate | |- ~ _ => intro | |- forall _, _ => intro | |- True => exact I | |- (_ <= _)%N => vm_compute; discriminate | |- Forall _ _ \/ _ => (left; now repeat constructor) || (right; now repeat constructor)
        | |- exists t v w, _ => eexists _, _, _; split; [reflexivity|exact made_fills]
        | H : In _ _ |- _ => cbn in H; intuition discriminate | H : _ \/ _ |- _ => destruct H | H : (_ = _)%N |- _ => discriminate H | H : False |- _ => contradiction end|]
    end.
  - repeat constructor; cbn; intuition discriminate.
  - vm_compute. lia.
  - eapply stands_alias; [left; reflexivity|]. eapply stands_alias; [right; left; reflexivity|]. apply (stands_name 1000 le_ lk_ known_ _ (lit "a") (JInt 1)). right. right. now left.
  - eapply stands_alias; [do 6 right; left; reflexivity|]. eapply (stands_object 1000 le_ lk_ known_ _ _ _ doc_ 5 new_ (Some made_)); [do 7 right; left; reflexivity|reflexivity|exact made_fills].
  - vm_compute. reflexivity.
Qed.
(* a typed name, and what is in it; what comes after the document is not looked at *)
Example c92_document_ex :
  let j := JObj [(lit "o!t", JObj [(lit "x", JInt 7)]); (lit "p.q", JNull)] in
  says [] j = [Typed_ [lit "o"] (lit "t"); Set_ [lit "o"; lit "x"] (AInt 7)] /\
  reads [lit "o"] (loads j) = Ok [Some (thing_ (lit "7") [VFloat (lit "3"); VFloat (lit "4")] [] [(lit "k", VFloat (lit "1"))] (yz_ (lit "0") (lit "2")))] /\
  load_config (path_layer 1000 le_) (root_maker lk_ known_) 9 99 (cempty []) (toks j ++ [AArrE]) = (do (c, _) <- loads j; Ok (c, [AArrE])).
Proof. vm_compute. auto. Qed.
Example c92_unknown_types_ex : known_ (lit "q") = None /\ loads (JObj [(lit "a!q", JObj [(lit "x", JInt 1)])]) = Abort.
Proof. split; reflexivity. Qed.
Example c92_only_documents_ex :
  (forall x, load_config (path_layer 1000 le_) (root_maker lk_ known_) 9 99 (cempty []) [AArrS; AInt 1; ASep; AArrE] <> Ok x) /\
  load_config (path_layer 1000 le_) (root_maker lk_ known_) 9 99 (cempty []) [AObjS; AStr (lit "a"); AKey; AInt 1] = Abort.
Proof. split; [intros x H; vm_compute in H; discriminate|reflexivity]. Qed.

(* An array for a name with a type is undefined: the loader sets the name a second time. *)
Theorem c92_typed_array_refuted : loads (JObj [(lit "a!vec", JArr [JInt 1])]) = UB /\
  loads (JObj [(lit "a", JInt 1); (lit "a", JInt 2)]) = UB.
Proof. split; reflexivity. Qed.
Print Assumptions c92_typed_array_refuted.
(* The empty array and the empty object do not even define their name, and a reference to a
   value of it is then an error. *)
Theorem c92_empty_refuted : reads [lit "a"; lit "b"] (loads (JObj [(lit "a", JArr []); (lit "b", JObj [])])) = Ok [None; None].
Proof. reflexivity. Qed.
Print Assumptions c92_empty_refuted.
(* Lists of truth values, of lists and of objects are errors, and so is a list of numbers and
   strings and an object without a type. *)
Theorem c92_lists_refuted : forall j, In j [JArr [JBool true]; JArr [JArr [JInt 1]]; JArr [JObj []]; JArr [JNull; JInt 1]; JArr [JInt 1; JStr []]; JObj [(lit "x", JInt 1)]] ->
  loads (JObj [(lit "a", j)]) = Abort.
Proof. intros j H. repeat (destruct H as [<-|H]; [vm_compute; reflexivity|]). destruct H. Qed.
Print Assumptions c92_lists_refuted.
(* A link with a type has the type in its name. *)
Theorem c92_typed_link_refuted :
  says [] (JObj [(lit "#a!t", JStr (lit "b"))]) = [Typed_ [lit "a!"] (lit "t"); Link_ [lit "a!"] (lit "b")] /\
  loads (JObj [(lit "b", JInt 1); (lit "#a!t", JStr (lit "b"))]) = UB.
Proof. split; reflexivity. Qed.
Print Assumptions c92_typed_link_refuted.
(* A list of links cannot be loaded for a name that is not there, wherever its targets are; an empty target is undefined. *)
Theorem c92_links_refuted :
  says [] (JObj [(lit "#a", JArr [JStr (lit "b")])]) = [Link_ [lit "a"; lit "0"] (lit "b")] /\
  loads (JObj [(lit "b", JInt 1); (lit "#a", JArr [JStr (lit "b")])]) = Abort /\
  loads (JObj [(lit "#a", JArr [JStr (lit "b")]); (lit "b", JInt 1)]) = Abort /\
  loads (JObj [(lit "#a", JStr [])]) = UB.
Proof. repeat split; reflexivity. Qed.
Print Assumptions c92_links_refuted.
