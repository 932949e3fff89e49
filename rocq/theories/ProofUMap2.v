(* ProofUMap2.v - printing maps of any iteration order and reading the text back *)
From Coq Require String. Import String.StringSyntax.
From Verif Require Import Base Dec ModelJson ModelJsonW ModelJsonT SpecJson SpecJsonT ProofJson1 ProofJsonT1 ProofJsonT2 ProofJsonT3 ProofJsonT4 ProofJsonT5 ModelUMap SpecUMap ProofUMap.
Local Open Scope outcome_scope.

(* ---- the sorted form ---- *)
Fixpoint in_order (v : val) : val :=
  match v with
  | VPtr (Some p) => VPtr (Some (in_order p))
  | VList l => VList (map in_order l)
  | VMap m => VMap (fold_right (fun kx acc => map_set (fst kx) (in_order (snd kx)) acc) [] m)
  | VObj o => VObj (map (fun kx => (fst kx, in_order (snd kx))) o)
  | _ => v
  end.
Definition sort_map (m : list (str * val)) := fold_right (fun kx acc => map_set (fst kx) (in_order (snd kx)) acc) [] m.
Lemma sort_map_sorted m : sorted (akeys (sort_map m)).
Proof. induction m as [|[k x] m IH]; [exact Logic.I|]. cbn. now apply map_set_sorted. Qed.
Lemma sort_map_find k m : afind k (sort_map m) = option_map in_order (afind k m).
Proof.
  induction m as [|[k' x] m IH]; [reflexivity|]. cbn [sort_map fold_right fst snd afind]. rewrite afind_map_set by apply sort_map_sorted.
  fold (sort_map m). rewrite IH. now destruct (str_eqb k k').
Qed.
Lemma find_map k (o : list (str * val)) : afind k (map (fun kx => (fst kx, in_order (snd kx))) o) = option_map in_order (afind k o).
Proof. induction o as [|[k' x] o IH]; [reflexivity|]. cbn [map afind fst snd]. rewrite IH. now destruct (str_eqb k k'). Qed.
Lemma canon e t u : typed e t u -> typed e t (in_order u) /\ sorted_maps (in_order u) /\ alike (in_order u) u.
Proof.
  induction 1 as [t b Ht|t z Ht Hz|t x Ht Hx|t s Ht|t sm i Ht|t sm i p Ht Hp IH|t i l Ht Hl IH|t i m Ht Hso Hm IH|t fs ini o Ht Hnk Hk Hfs IH]; cbn [in_order].
  - repeat split; constructor; auto.
  - repeat split; constructor; auto.
  - repeat split; constructor; auto.
  - repeat split; constructor; auto.
  - repeat split; try constructor; auto. eapply ty_null; eauto.
  - destruct IH as (A & B & C). repeat split; try constructor; auto. eapply ty_ptr; eauto.
  - repeat split.
    + eapply ty_list; eauto. intros x Hx. apply in_map_iff in Hx as (y & <- & Hy). now apply IH.
    + constructor. intros x Hx. apply in_map_iff in Hx as (y & <- & Hy). now apply IH.
    + constructor. clear Hl. induction l as [|x l IHl]; constructor; [apply IH; now left|apply IHl; intros; apply IH; now right].
  - fold (sort_map m). assert (Hi : forall k x, In (k, x) (sort_map m) -> exists y, In (k, y) m /\ x = in_order y).
    { intros k x I. apply In_afind_NoDup in I; [|apply sorted_NoDup, sort_map_sorted]. rewrite sort_map_find in I.
      destruct (afind k m) as [y|] eqn:E; [|discriminate]. injection I as <-. exists y. split; auto. now apply afind_In. }
    repeat split.
    + eapply ty_map; eauto; [apply sorted_NoDup, sort_map_sorted|]. intros k x I. apply Hi in I as (y & I & ->). eapply IH; eauto.
    + constructor; [apply sort_map_sorted|]. intros k x I. apply Hi in I as (y & I & ->). eapply IH; eauto.
    + constructor.
      * intro k. rewrite !find_In_iff, sort_map_find. destruct (afind k m); cbn; split; intros (x & E); eauto; discriminate.
      * intros k x y. rewrite sort_map_find. destruct (afind k m) as [z|] eqn:E; [|discriminate]. intros [= <-] [= <-].
        eapply IH. apply afind_In. exact E.
  - repeat split.
    + eapply ty_obj; eauto.
      * unfold akeys in *. rewrite map_map. cbn. exact Hk.
      * intros f x Hf. rewrite find_map. destruct (afind (f_key f) o) as [y|] eqn:E; [|discriminate]. intros [= <-]. now apply (IH f).
    + constructor. intros k x I. apply in_map_iff in I as ([k' y] & Q & I). injection Q as <- <-. cbn [snd].
      assert (Kf : In k' (map f_key fs)) by (rewrite <- Hk; apply (in_map fst _ _ I)). apply in_map_iff in Kf as (f & <- & Hf).
      apply (IH f); auto. apply In_afind_NoDup; auto. rewrite Hk. exact Hnk.
    + constructor. assert (G : forall k x, In (k, x) o -> alike (in_order x) x).
      { intros k x I. assert (Kf : In k (map f_key fs)) by (rewrite <- Hk; apply (in_map fst _ _ I)). apply in_map_iff in Kf as (f & <- & Hf).
        apply (IH f); auto. apply In_afind_NoDup; auto. rewrite Hk. exact Hnk. }
      clear -G. induction o as [|[k x] o IHo]; constructor; [apply (G k); now left|]. apply IHo. intros; eapply G; right; eauto.
Qed.
Lemma typed_unique e t u : typed e t u -> unique_keys u.
Proof.
  induction 1 as [t b Ht|t z Ht Hz|t x Ht Hx|t s Ht|t sm i Ht|t sm i p Ht Hp IH|t i l Ht Hl IH|t i m Ht Hso Hm IH|t fs ini o Ht Hnk Hk Hfs IH]; try constructor; auto.
  intros k x I. assert (Kf : In k (map f_key fs)) by (rewrite <- Hk; apply (in_map fst _ _ I)). apply in_map_iff in Kf as (f & <- & Hf).
  apply (IH f); auto. apply In_afind_NoDup; auto. rewrite Hk. exact Hnk.
Qed.
Lemma alike_empty : (forall x y, alike x y -> empty_val x -> empty_val y) /\ (forall l l' : list val, alike_items l l' -> True) /\
  (forall o o' : list (str * val), alike_fields o o' -> True).
Proof.
  apply alike_comb; auto.
  - intros p q _ IH H. inversion H; subst. constructor. auto.
  - intros l l' H _ K. inversion K; subst. inversion H; subst. constructor.
  - intros m m' Hk _ _ K. inversion K; subst. destruct m' as [|[k x] m']; [constructor|]. destruct (proj2 (Hk k)). now left.
  - intros o o' H _ K. inversion K.
Qed.
Lemma empty_like x y : alike x y -> (empty_val x <-> empty_val y).
Proof. intro H. split; apply alike_empty; auto. now apply alike_sym. Qed.
Lemma omitted_like c f x y : alike x y -> (omitted c f x <-> omitted c f y).
Proof. intro H. unfold omitted. now rewrite (empty_like x y H). Qed.
Lemma fields_find k o o' x : alike_fields o o' -> afind k o' = Some x -> exists y, afind k o = Some y /\ alike y x.
Proof. induction 1 as [|k' a b o o' Hab Ho IH]; cbn [afind]; [discriminate|]. destruct (str_eqb k k'); [intros [= <-]; eauto|exact IH]. Qed.
Lemma fields_keys o o' : alike_fields o o' -> akeys o = akeys o'.
Proof. unfold akeys. induction 1; cbn; congruence. Qed.

Section Back.
Context (e : env) (c : bool) (He : env_ok e).
Definition Bshow t u j := typed e t u -> forall v v0, alike v u -> restores e c t v0 v -> reads e t v0 j v /\ (v <> VPtr None -> j <> JNull).
Definition Bitems i (l : list val) js := (forall x, In x l -> typed e i x) -> forall l', alike_items l' l ->
  (forall x, In x l' -> restores e c i (dval e i) x) -> reads_items e i js l'.
Definition Bpairs i (m : list (str * val)) (kjs : list (str * json)) :=
  (forall k x, In (k, x) m -> typed e i x) -> forall m', alike_fields m' m ->
  (forall k x, In (k, x) m' -> restores e c i (dval e i) x) -> reads_pairs e i kjs m'.
Definition Bmembers (o : list (str * val)) (sel : list field) (kjs : list (str * json)) :=
  forall ov fs oc, alike_fields ov o -> NoDup (map f_key sel) ->
  (forall f, In f sel -> In f fs /\ f_skip f = false /\ (forall g, In g fs -> f_skip g = false -> json_name g = json_name f -> g = f)) ->
  (forall f x, In f sel -> afind (f_key f) o = Some x -> typed e (f_type f) x) ->
  (forall f x, In f sel -> afind (f_key f) ov = Some x -> exists x0, afind (f_key f) oc = Some x0 /\ restores e c (f_type f) x0 x) ->
  exists o', reads_members e fs oc kjs o' /\ akeys o' = akeys oc /\
    (forall f, In f sel -> afind (f_key f) o' = afind (f_key f) ov) /\
    (forall k, ~ In k (map f_key sel) -> afind k o' = afind k oc).
Lemma Bnot_raw i x y j : Bshow i x j -> typed e i x -> alike y x -> restores e c i (dval e i) y -> ~ raw_null e i j.
Proof.
  intros H Ht Ha Hr (Hj & k & Hk). destruct (H Ht _ _ Ha Hr) as (_ & A).
  assert (X : y = VPtr None).
  { destruct y as [| | | | |[p|]| | |]; try (exfalso; apply A; [discriminate|exact Hj]). reflexivity. }
  subst y. inversion Hr; subst. congruence.
Qed.
Lemma shows_reads_u :
  (forall t v j, shows e c t v j -> Bshow t v j) /\
  (forall i l js, shows_items e c i l js -> Bitems i l js) /\
  (forall i m kjs, shows_pairs e c i m kjs -> Bpairs i m kjs) /\
  (forall o sel kjs, shows_members e c o sel kjs -> Bmembers o sel kjs).
Proof.
  apply shows_comb.
  - intros t b Ht _ v v0 Ha _. inversion Ha; subst. split; [now constructor|discriminate].
  - intros t z Ht Hty v v0 Ha _. inversion Ha; subst. split; [|discriminate]. inversion Hty; subst. now constructor.
  - intros t x Ht Hx _ v v0 Ha _. inversion Ha; subst. split; [constructor; auto using float_text_read|discriminate].
  - intros t s Ht _ v v0 Ha _. inversion Ha; subst. split; [now constructor|discriminate].
  - intros t sm i Ht _ v v0 Ha Hr. inversion Ha; subst. split; [|congruence]. inversion Hr; subst. eapply rd_null; eauto.
  - intros t sm i p j Ht _ IH Hty v v0 Ha Hr. inversion Hty as [| | | | |t0 sm0 i0 p0 Ht0 Hp0| | |]; subst. rewrite Ht in Ht0. injection Ht0 as <- <-.
    inversion Ha as [| | | | | |q q' Hq| | |]; subst.
    inversion Hr as [| | | | |t1 sm1 i1 p1 p2 Ht1 Hn1 Hr1| | |]; subst. rewrite Ht in Ht1. injection Ht1 as <- <-.
    destruct (IH Hp0 _ _ Hq Hr1) as [A B]. split; [|intros _; now apply B]. eapply rd_ptr; eauto.
  - intros t i l js Ht _ IH Hty v v0 Ha Hr. inversion Ha as [| | | | | | |l' l0 Hl'| |]; subst. split; [|discriminate].
    inversion Hty as [| | | | | |t0 i0 l0 Ht0 Hl| |]; subst. rewrite Ht in Ht0. injection Ht0 as <-.
    inversion Hr as [| | | | | |t1 i1 l1 Ht1 Hr1| |]; subst. rewrite Ht in Ht1. injection Ht1 as <-.
    apply (rd_list e t i [] js l'); auto.
  - intros t i m kjs Ht Hso _ IH Hty v v0 Ha Hr. inversion Ha as [| | | | | | | |mv m0' Hkk Hxx|]; subst. split; [|discriminate].
    inversion Hty as [| | | | | | |t0 i0 l0 Ht0 _ Hm|]; subst. rewrite Ht in Ht0. injection Ht0 as <-.
    inversion Hr as [| | | | | | |t1 i1 m0 m1 Ht1 Hs0 Hs1 Hsub Hr1|]; subst. rewrite Ht in Ht1. injection Ht1 as <-.
    assert (Hget : forall k x, In (k, x) m -> exists y, afind k mv = Some y /\ alike y x).
    { intros k x I. apply In_afind_NoDup in I; auto. assert (Kv : In k (akeys mv)) by (apply Hkk, find_In_iff; eauto).
      apply find_In_iff in Kv as (y & Ey). exists y. split; eauto. }
    assert (G : exists m', alike_fields m' m /\ forall k y, In (k, y) m' -> afind k mv = Some y).
    { clear -Hget. induction m as [|[k x] m IHm]; [exists []; split; [constructor|intros k y []]|].
      destruct (Hget k x (or_introl eq_refl)) as (y & Ey & Ay). destruct IHm as (m' & A & B); [intros; apply Hget; now right|].
      exists ((k, y) :: m'). split; [now constructor|]. intros k1 y1 [Q|I]; [injection Q as <- <-; exact Ey|eauto]. }
    destruct G as (m' & Am & Gm). pose proof (fields_keys _ _ Am) as Km.
    apply (rd_map e t i m0 kjs m' mv Ht Hs0).
    + apply IH; auto. intros k x I. apply (Hr1 k). apply Gm in I. now apply afind_In.
    + split; [exact Hs1|]. intro k. rewrite (last_of_nodup k m') by (rewrite Km; exact Hso).
      destruct (afind k m') as [y|] eqn:F.
      * apply afind_In in F. now apply Gm.
      * assert (Nv : ~ In k (akeys mv)). { intro I. apply Hkk in I. rewrite <- Km in I. apply find_In_iff in I as (z & I). congruence. }
        rewrite (find_keys k mv Nv). symmetry. apply find_keys. auto.
  - intros t fs ini o sel kjs Ht Hso Hex Hsel Hsub _ IH Hty v v0 Ha Hr. inversion Ha as [| | | | | | | | |ov oo Hov]; subst. split; [|discriminate].
    inversion Hty as [| | | | | | | |t0 fs0 ini0 o0 Ht0 Hnk Hk Hfs]; subst. rewrite Ht in Ht0. injection Ht0 as <- <-.
    inversion Hr as [| | | | | | | |t1 fs1 ini1 o1 o2 Ht1 Hk1 Hr1]; subst. rewrite Ht in Ht1. injection Ht1 as <- <-.
    pose proof (fields_keys _ _ Hov) as Kov.
    destruct (He t _ Ht) as [Hnd _]. cbn in Hnd.
    assert (Hns : forall f, In f sel -> f_skip f = false).
    { intros f Hf. destruct (Hex f (Hsub f Hf)) as (x & Hx). pose proof (proj1 (Hsel f x (Hsub f Hf) Hx) Hf) as Ho.
      destruct (f_skip f) eqn:E; auto. destruct Ho. now left. }
    destruct (IH ov fs o1 Hov) as (o' & A & B & C & D).
    + assert (Hsn : NoDup sel). { eapply NoDup_map_inv. apply sorted_NoDup. exact Hso. }
      clear -Hsn Hsub Hnk. induction sel as [|f sel IHs]; [constructor|]. inversion Hsn as [|? ? P Q]; subst. cbn [map]. constructor.
      * intro K. apply in_map_iff in K as (g & Eg & Hg). apply P.
        assert (f = g); [|congruence]. clear -Hnk Hsub Hg Eg.
        assert (Hf : In f fs) by (apply Hsub; now left). assert (Hgf : In g fs) by (apply Hsub; now right). clear Hsub Hg.
        induction fs as [|h fs IHf]; [destruct Hf|]. cbn [map] in Hnk. inversion Hnk as [|? ? U V]; subst.
        destruct Hf as [->|Hf], Hgf as [->|Hgf]; auto; exfalso; apply U; [rewrite <- Eg|rewrite Eg]; now apply in_map.
      * apply IHs; auto. intros g Hg. apply Hsub. now right.
    + intros f Hf. split; [auto|]. split; [auto|]. intros g Hg Hgs Hn. apply (name_inj (obj_fields fs)); auto; apply filter_In; (split; [auto|]); [now rewrite Hgs|now rewrite (Hns f Hf)].
    + intros f x Hf Hx. auto.
    + intros f x Hf Hx. assert (K : In (f_key f) (akeys o1)). { rewrite Hk1, Kov, Hk. apply in_map. auto. }
      apply keys_find in K as (x0 & Hx0). exists x0. split; auto. apply (Hr1 f x x0); auto.
      destruct (Hex f (Hsub f Hf)) as (xu & Hxu). destruct (fields_find _ _ _ _ Hov Hxu) as (y & Ey & Ay). rewrite Ey in Hx. injection Hx as ->.
      rewrite (omitted_like c f x xu Ay). now apply (proj1 (Hsel f xu (Hsub f Hf) Hxu)).
    + assert (o' = ov).
      { apply alist_ext; [congruence|rewrite B, Hk1, Kov, Hk; exact Hnk|]. intros k K. rewrite B, Hk1, Kov, Hk in K. apply in_map_iff in K as (f & <- & Hf).
        destruct (in_dec (list_eq_dec N.eq_dec) (f_key f) (map f_key sel)) as [K|K].
        - apply in_map_iff in K as (g & Eg & Hg). rewrite <- Eg. now apply C.
        - rewrite (D _ K). destruct (Hex f Hf) as (xu & Hxu). destruct (fields_find _ _ _ _ Hov Hxu) as (x & Hx & Ax).
          assert (K1 : In (f_key f) (akeys o1)). { rewrite Hk1, Kov, Hk. now apply in_map. }
          apply keys_find in K1 as (x0 & Hx0). rewrite Hx, Hx0. f_equal. apply (Hr1 f x x0 Hf Hx Hx0).
          apply (omitted_like c f x xu Ax).
          apply omitb_ok. destruct (omitb c f xu) eqn:E; auto. exfalso. apply K. apply in_map. apply (Hsel f xu Hf Hxu). rewrite <- omitb_ok. congruence. }
      subst o'. eapply rd_obj; eauto.
  - intros i _ l' Al _. inversion Al; subst. constructor.
  - intros i x l j js _ IH _ IH' Ht l' Al Hr. inversion Al as [|y x' l1 l2 Ay Al']; subst. constructor.
    + apply (Bnot_raw i x y j IH); auto; [apply Ht; now left|apply Hr; now left].
    + apply (IH (Ht x (or_introl eq_refl)) y); auto. apply Hr; now left.
    + apply IH'; auto; intros; [apply Ht|apply Hr]; now right.
  - intros i _ l' Al _. inversion Al; subst. constructor.
  - intros i k x m j kjs _ IH _ IH' Ht l' Al Hr. inversion Al as [|k' y x' l1 l2 Ay Al']; subst. constructor.
    + apply (Bnot_raw i x y j IH); auto; [eapply Ht; now left|eapply Hr; now left].
    + apply (IH (Ht k x (or_introl eq_refl)) y); auto. eapply Hr; now left.
    + apply IH'; auto; intros; [eapply Ht|eapply Hr]; right; eauto.
  - intros o ov fs oc _ _ _ _ _. exists oc. repeat split; auto; [constructor|intros f []].
  - intros o f x sel j kjs Hx _ IH _ IH' ov fs oc Hov Hnd Hf Hty Hr. cbn [map] in Hnd. inversion Hnd as [|? ? P Q]; subst.
    destruct (fields_find _ _ _ _ Hov Hx) as (y & Ey & Ay).
    destruct (Hr f y (or_introl eq_refl) Ey) as (x0 & Hx0 & Hrs). destruct (IH (Hty f x (or_introl eq_refl) Hx) y x0 Ay Hrs) as [A _].
    destruct (Hf f (or_introl eq_refl)) as (F1 & F2 & F3).
    destruct (IH' ov fs (aset (f_key f) y oc) Hov Q) as (o' & B1 & B2 & B3 & B4).
    + intros g Hg. apply Hf. now right.
    + intros g z Hg Hz. apply Hty; auto. now right.
    + intros g z Hg Hz. destruct (Hr g z (or_intror Hg) Hz) as (y0 & Hy0 & T2). exists y0. split; auto.
      rewrite afind_aset_other; auto. intro K. apply P. rewrite <- K. now apply in_map.
    + exists o'. split; [|split; [|split]].
      * eapply rm_known; eauto.
      * rewrite B2, akeys_aset. unfold ahas. now rewrite Hx0.
      * intros g [<-|Hg]; [|now apply B3]. rewrite (B4 _ P), afind_aset_same. auto.
      * intros k K. cbn [map In] in K. rewrite B4 by tauto. rewrite afind_aset_other; auto.
Qed.
End Back.

Lemma round_trip_u wo o e t u v v0 : env_ok e -> no_void e -> t < length e -> typed e t u -> alike v u ->
  restores e (w_compact wo) t v0 v -> names_ok (str_ok wo (dia o)) e -> all_strings (str_ok wo (dia o)) u ->
  (w_pretty wo = true -> vdepth u <= 1024) ->
  exists x steps, forall fuel, steps <= fuel ->
    print_text fuel wo e t u = Ok (x, false) /\
    exists r, parse_text fuel o e t v0 x = Ok (v, r) /\ rerr r = None /\ rin r = [].
Proof.
  intros He Hv Ht Hty Ha Hrs Hn Hs Hd. destruct (typed_shows e (w_compact wo) He t u Hty) as (j & Hsh & Hst & Hde).
  destruct (print_text_ok wo (dia o) e t u j) as (x & Hx & n1 & Hp); auto. { intro H. specialize (Hd H). lia. }
  destruct (proj1 (shows_reads_u e (w_compact wo) He) _ _ _ Hsh Hty v v0 Ha Hrs) as [Hre _].
  destruct (parse_text_ok o e t v0 j v x [] He Ht Hre Hx) as (n2 & Hq).
  exists x, (n1 + n2). intros fuel Hf. split; [apply Hp; lia|apply Hq; lia].
Qed.
