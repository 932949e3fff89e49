(* ProofPath.v - lemmas for C91. *)
From Coq Require String. Import String.StringSyntax.
From Verif Require Import Base Dec ModelJson ModelJsonW ModelJsonT ModelConfig ModelPath SpecPath.
Local Open Scope outcome_scope.

Lemma ptr_ind (P : val -> Prop) : (forall x, P x -> P (VPtr (Some x))) -> (forall v, (forall x, v <> VPtr (Some x)) -> P v) -> forall v, P v.
Proof.
  intros A B. fix IH 1. intros [| | | | |[x|]| | |]; try (apply B; discriminate). apply A, IH.
Qed.

(* ---- one level of the functions ---- *)
Lemma vhas_eq e k p c t v : vhas e (k :: p) c t v =
  match nth_error e t with
  | None => UB
  | Some (DPtr sm i) => match v with VPtr (Some x) => vhas e (k :: p) (const_behind sm c) i x | _ => UB end
  | Some (DList i) =>
    match v with
    | VList l =>
      do d <- isIndex [k] 0; if negb d then Ok false else
      do n <- index [k] 0;
      if N.leb (N.of_nat (length l)) n then Ok false else
      if c then Abort else
      match nth_error l (N.to_nat n) with Some x => vhas e p c i x | None => UB end
    | _ => UB
    end
  | Some (DMap i) =>
    match v with
    | VMap m => match afind k m with None => Ok false | Some x => if c then Abort else vhas e p c i x end
    | _ => UB
    end
  | Some (DObj fs _) =>
    match field_named fs k with
    | None => Ok false
    | Some f => match v with VObj o => match afind (f_key f) o with Some x => vhas e p c (f_type f) x | None => UB end | _ => UB end
    end
  | Some _ => Ok false
  end.
Proof. destruct v as [| | | | |[x|]| | |]; reflexivity. Qed.

Lemma vget_eq max e k p c t v : vget max e (k :: p) c t v =
  match nth_error e t with
  | None => UB
  | Some (DPtr sm i) =>
    match v with
    | VPtr (Some x) => do g <- vget max e (k :: p) (const_behind sm c) i x; Ok (in_whole g (VPtr (Some (g_whole g))))
    | _ => UB
    end
  | Some (DList i) =>
    match v with
    | VList l =>
      do n <- index [k] 0;
      if c then Abort else
      do (l', x) <- grow max e i l n;
      do g <- vget max e p c i x;
      Ok (in_whole g (VList (put_at l' (N.to_nat n) (g_whole g))))
    | _ => UB
    end
  | Some (DMap i) =>
    match v with
    | VMap m =>
      if c then Abort else
      do g <- vget max e p c i (match afind k m with Some x => x | None => dval e i end);
      Ok (in_whole g (VMap (map_set k (g_whole g) m)))
    | _ => UB
    end
  | Some (DObj fs _) =>
    match field_named fs k with
    | None => Abort
    | Some f =>
      match v with
      | VObj o =>
        match afind (f_key f) o with
        | Some x => do g <- vget max e p c (f_type f) x; Ok (in_whole g (VObj (aset (f_key f) (g_whole g) o)))
        | None => UB
        end
      | _ => UB
      end
    end
  | Some _ => Abort
  end.
Proof. destruct v as [| | | | |[x|]| | |]; reflexivity. Qed.

Lemma replace_eq e k p w t v : replace_part e (k :: p) w t v =
  match nth_error e t, v with
  | Some (DPtr _ i), VPtr (Some x) => VPtr (Some (replace_part e (k :: p) w i x))
  | Some (DList i), VList l =>
    match nth_error l (N.to_nat (undec k)) with Some x => VList (put_at l (N.to_nat (undec k)) (replace_part e p w i x)) | None => v end
  | Some (DMap i), VMap m =>
    match afind k m with Some x => VMap (map_set k (replace_part e p w i x) m) | None => v end
  | Some (DObj fs _), VObj o =>
    match field_named fs k with
    | Some f => match afind (f_key f) o with Some x => VObj (aset (f_key f) (replace_part e p w (f_type f) x) o) | None => v end
    | None => v
    end
  | _, _ => v
  end.
Proof. destruct v as [| | | | |[x|]| | |]; reflexivity. Qed.

(* ---- indices ---- *)
Lemma digits_all k : forallb is_digit k = true <-> Forall (fun c => is_digit c = true) k.
Proof. rewrite forallb_forall, Forall_forall. reflexivity. Qed.
Lemma index_number k n : index [k] 0 = Ok n <-> number k n.
Proof.
  unfold index, number. cbn [nth_error]. destruct (forallb is_digit k) eqn:E.
  - apply digits_all in E. destruct k as [|c k].
    + split; [discriminate|]. intros (A & _). now destruct A.
    + destruct (N.ltb_spec (undec (c :: k)) (2 ^ 64)) as [L|L].
      * split; [intro H; injection H as <-; repeat split; auto; discriminate|]. intros (_ & _ & <- & _). reflexivity.
      * split; [discriminate|]. intros (_ & _ & <- & H). exfalso. apply (N.lt_irrefl (2 ^ 64)). eapply N.le_lt_trans; eauto.
  - split; [discriminate|]. intros (_ & A & _). apply digits_all in A. congruence.
Qed.
Lemma isIndex_eq k : isIndex [k] 0 = Ok (forallb is_digit k).
Proof. reflexivity. Qed.
Lemma number_isIndex k n : number k n -> isIndex [k] 0 = Ok true.
Proof. intros (_ & A & _). rewrite isIndex_eq. now apply digits_all in A as ->. Qed.
Lemma number_undec k n : number k n -> undec k = n.
Proof. now intros (_ & _ & A & _). Qed.
Lemma number_fun k n m : number k n -> number k m -> n = m.
Proof. intros A B. now rewrite <- (number_undec _ _ A), <- (number_undec _ _ B). Qed.

(* ---- lists ---- *)
Lemma put_at_length l n x : length (put_at l n x) = length l.
Proof. revert n. induction l as [|y l IH]; intros [|n]; cbn; auto. Qed.
Lemma nth_put_at l n x : n < length l -> nth_error (put_at l n x) n = Some x.
Proof. revert n. induction l as [|y l IH]; intros [|n] H; cbn in *; auto; try lia. apply IH. lia. Qed.
Lemma nth_put_other l n m x : m <> n -> nth_error (put_at l n x) m = nth_error l m.
Proof. revert n m. induction l as [|y l IH]; intros [|n] [|m] H; cbn in *; auto; congruence || (apply IH; congruence). Qed.
Lemma put_put l n x y : put_at (put_at l n x) n y = put_at l n y.
Proof. revert n. induction l as [|z l IH]; intros [|n]; cbn; f_equal; auto. Qed.
Lemma put_same l n x : nth_error l n = Some x -> put_at l n x = l.
Proof. revert n. induction l as [|z l IH]; intros [|n] H; cbn in *; f_equal; auto; congruence. Qed.
Lemma resize_length e i l n : length (resize_list e i l n) = n.
Proof. unfold resize_list. rewrite app_length, firstn_length, repeat_length. lia. Qed.
Lemma resize_same e i l : resize_list e i l (length l) = l.
Proof. unfold resize_list. rewrite firstn_all, Nat.sub_diag. apply app_nil_r. Qed.
Lemma nth_firstn {A} (l : list A) n m : m < n -> nth_error (firstn n l) m = nth_error l m.
Proof. revert n m. induction l as [|x l IH]; intros [|n] [|m] H; cbn; auto; try lia. apply IH. lia. Qed.
Lemma nth_resize e i l n m x : nth_error l m = Some x -> m < n -> nth_error (resize_list e i l n) m = Some x.
Proof.
  intros H L. assert (B : m < length l) by (apply nth_error_Some; congruence). unfold resize_list.
  rewrite nth_error_app1; [rewrite nth_firstn; auto|]. rewrite firstn_length. lia.
Qed.
Lemma put_resize e i l n x : put_at (resize_list e i l (S n)) n x = firstn n l ++ repeat (dval e i) (n - length l) ++ [x].
Proof.
  unfold resize_list. revert n. induction l as [|y l IH]; intro n.
  - cbn [length]. rewrite Nat.sub_0_r, !firstn_nil. cbn [app]. rewrite Nat.sub_0_r.
    change (repeat (dval e i) (S n)) with (dval e i :: repeat (dval e i) n). clear. induction n as [|n IHn]; [reflexivity|]. cbn [repeat put_at app]. f_equal. exact IHn.
  - destruct n as [|n]; [reflexivity|]. cbn [firstn app put_at length Nat.sub]. f_equal. apply IH.
Qed.

(* the list afterwards has exactly n + 1 elements *)
Lemma grow_spec max e i l n r : (max < 2 ^ 64)%N -> (n < 2 ^ 64)%N ->
  grow max e i l n = Ok r <->
  (n < max)%N /\ fst r = resize_list e i l (S (N.to_nat n)) /\ nth_error (fst r) (N.to_nat n) = Some (snd r).
Proof.
  intros Hm Hn. unfold grow. cbv zeta. destruct r as [l1 x1]. cbn [fst snd].
  destruct (N.eq_dec n (2 ^ 64 - 1)) as [->|Ne].
  - replace ((2 ^ 64 - 1 + 1) mod 2 ^ 64)%N with 0%N by reflexivity.
    destruct (N.ltb_spec max 0); [lia|]. change (N.to_nat 0) with 0. 
    assert (L0 : length (resize_list e i l 0) = 0) by apply resize_length. rewrite L0. change (N.of_nat 0) with 0%N.
    destruct (N.ltb_spec (2 ^ 64 - 1) 0); [lia|]. split; [discriminate|]. intros (A & _). lia.
  - rewrite N.mod_small by lia. replace (N.to_nat (n + 1)) with (S (N.to_nat n)) by lia. rewrite resize_length.
    destruct (N.ltb_spec n (N.of_nat (S (N.to_nat n)))); [|lia].
    destruct (N.ltb_spec max (n + 1)) as [G|G].
    + split; [discriminate|]. intros (A & _). lia.
    + destruct (nth_error (resize_list e i l (S (N.to_nat n))) (N.to_nat n)) as [x|] eqn:E.
      * split; [intro H0; injection H0 as <- <-; repeat split; auto; lia|]. intros (_ & -> & H0). congruence.
      * apply nth_error_None in E. rewrite resize_length in E. lia.
Qed.

(* ---- maps ---- *)
Lemma afind_map_set_same k v m : afind k (map_set k v m) = Some v.
Proof.
  induction m as [|[k' v'] m IH]; cbn; [now rewrite str_eqb_refl|]. destruct (str_eqb k k') eqn:E; cbn; [now rewrite str_eqb_refl|].
  destruct (str_ltb k k'); cbn; [now rewrite str_eqb_refl|]. now rewrite E.
Qed.
Lemma afind_map_set_other k k' v m : k' <> k -> afind k' (map_set k v m) = afind k' m.
Proof.
  intro H. assert (F : str_eqb k' k = false) by (destruct (str_eqb k' k) eqn:X; auto; apply str_eqb_eq in X; contradiction).
  induction m as [|[k2 v2] m IH]; cbn [map_set afind]; [now rewrite F|]. destruct (str_eqb k k2) eqn:E.
  - apply str_eqb_eq in E as <-. cbn [afind]. now rewrite F.
  - destruct (str_ltb k k2); cbn [afind]; [now rewrite F|]. destruct (str_eqb k' k2); auto.
Qed.
Lemma map_set_set k v w m : map_set k w (map_set k v m) = map_set k w m.
Proof.
  induction m as [|[k' v'] m IH]; cbn [map_set]; [now rewrite str_eqb_refl|]. destruct (str_eqb k k') eqn:E; cbn [map_set]; [now rewrite str_eqb_refl|].
  destruct (str_ltb k k') eqn:F; cbn [map_set]; [now rewrite str_eqb_refl|]. rewrite E, F. now f_equal.
Qed.
Lemma map_set_same k v m : afind k (map_set k v m) = Some v /\ map_set k v (map_set k v m) = map_set k v m.
Proof. split; [apply afind_map_set_same|apply map_set_set]. Qed.
Lemma aset_aset {V} k (v w : V) m : aset k w (aset k v m) = aset k w m.
Proof.
  induction m as [|[k' v'] m IH]; cbn [aset]; [now rewrite str_eqb_refl|]. destruct (str_eqb k k') eqn:E; cbn [aset]; [now rewrite str_eqb_refl|].
  rewrite E. now f_equal.
Qed.
Lemma aset_same {V} k (v : V) m : afind k m = Some v -> aset k v m = m.
Proof.
  induction m as [|[k' v'] m IH]; cbn [aset afind]; [discriminate|]. destruct (str_eqb k k') eqn:E; intro H.
  - apply str_eqb_eq in E as ->. now injection H as ->.
  - f_equal. auto.
Qed.

(* ---- fields ---- *)
Lemma field_named_spec fs k f : NoDup (map f_key fs) -> field_named fs k = Some f <-> In f fs /\ f_key f = k.
Proof.
  intro ND. unfold field_named. split.
  - intro H. apply find_some in H as (A & B). apply str_eqb_eq in B. auto.
  - intros (A & <-). induction fs as [|g fs IH]; [contradiction|]. cbn [find map] in *. inversion ND; subst. destruct A as [->|A].
    + now rewrite str_eqb_refl.
    + destruct (str_eqb (f_key f) (f_key g)) eqn:E; [|auto]. apply str_eqb_eq in E. exfalso. apply H1. rewrite <- E. now apply in_map.
Qed.
Lemma field_is_named fs k i : field_is fs k i -> exists f, field_named fs k = Some f /\ f_key f = k /\ f_type f = i.
Proof. intros (ND & f & A & B & C). exists f. split; auto. apply field_named_spec; auto. Qed.
Lemma named_field_is fs k f : NoDup (map f_key fs) -> field_named fs k = Some f -> f_key f = k /\ field_is fs k (f_type f).
Proof. intros ND H. apply field_named_spec in H as (A & B); auto. split; auto. split; auto. exists f. auto. Qed.


(* ---- has ---- *)
Lemma has_true e p : unique_names e -> forall c t v, vhas e p c t v = Ok true -> exists u w, part e t v p u w.
Proof.
  intro U. induction p as [|k p IH]; intros c t v.
  - intros _. exists t, v. constructor.
  - revert c t. induction v as [x IHx|v Nv] using ptr_ind; intros c t H; rewrite vhas_eq in H.
    + destruct (nth_error e t) as [d|] eqn:Et; [|discriminate]. destruct d; try discriminate.
      * apply IHx in H as (u & w & H). exists u, w. eapply part_pointee; eauto; discriminate.
      * destruct (field_named fs k); discriminate.
    + destruct (nth_error e t) as [d|] eqn:Et; [|discriminate]. destruct d as [| | | |sm i|i|i| |fs ini]; try discriminate.
      * destruct v as [| | | | |[x|]| | |]; try discriminate. exfalso. eapply Nv. reflexivity.
      * destruct v as [| | | | | | |m|]; try discriminate. destruct (afind k m) as [x|] eqn:Ek; [|discriminate].
        destruct c; [discriminate|]. apply IH in H as (u & w & H). exists u, w. eapply part_value; eauto.
      * destruct v as [| | | | | |l| |]; try discriminate. rewrite isIndex_eq in H. cbn [bind] in H. destruct (forallb is_digit k); [|discriminate].
        cbn [negb] in H. destruct (index [k] 0) as [n| | | |] eqn:En; try discriminate. cbn [bind] in H. apply index_number in En.
        destruct (N.leb (N.of_nat (length l)) n); [discriminate|]. destruct c; [discriminate|].
        destruct (nth_error l (N.to_nat n)) as [x|] eqn:Ex; [|discriminate]. apply IH in H as (u & w & H). exists u, w. eapply part_element; eauto.
      * destruct (field_named fs k) as [f|] eqn:Ef; [|discriminate]. destruct v as [| | | | | | | |o]; try discriminate.
        apply (named_field_is _ _ _ (U _ _ _ Et)) in Ef as (Ek & Fi). rewrite Ek in H. destruct (afind k o) as [x|] eqn:Ex; [|discriminate].
        apply IH in H as (u & w & H). exists u, w. eapply part_field; eauto.
Qed.
Lemma const_behind_false sm : const_behind sm false = false.
Proof. now destruct sm. Qed.
Lemma part_has e t v p u w : part e t v p u w -> vhas e p false t v = Ok true.
Proof.
  induction 1 as [t v|t sm i x p u w Et Np H IH|t i l k n x p u w Et Nk Ex H IH|t i m k x p u w Et Ek H IH|t fs ini o k i x p u w Et Fi Ek H IH].
  - reflexivity.
  - destruct p as [|k p]; [contradiction|]. rewrite vhas_eq, Et, const_behind_false. exact IH.
  - rewrite vhas_eq, Et, (number_isIndex _ _ Nk). cbn [bind negb]. rewrite (proj2 (index_number _ _) Nk). cbn [bind].
    assert (L : N.to_nat n < length l) by (apply nth_error_Some; congruence).
    destruct (N.leb_spec (N.of_nat (length l)) n); [lia|]. rewrite Ex. exact IH.
  - rewrite vhas_eq, Et, Ek. exact IH.
  - rewrite vhas_eq, Et. apply field_is_named in Fi as (f & -> & -> & ->). rewrite Ek. exact IH.
Qed.
Lemma has_total e p : sane p -> forall t v, whole e t v -> exists b, vhas e p false t v = Ok b.
Proof.
  induction p as [|k p IH]; intros Sa t v W; [eexists; reflexivity|].
  assert (Sp : sane p) by (intros z Hz; apply Sa; cbn; auto). specialize (IH Sp).
  revert t W. induction v as [x IHx|v Nv] using ptr_ind; intros t W.
  - rewrite vhas_eq. inversion W as [t0 d v0 Et Hd|t0 sm i y Et Hx| | |]; subst.
    + rewrite Et. destruct d; try contradiction; eexists; reflexivity.
    + rewrite Et. rewrite const_behind_false. auto.
  - rewrite vhas_eq. inversion W as [t0 d v0 Et Hd|t0 sm i x Et Hx|t0 i l Et Hl|t0 i m Et Hm|t0 fs ini o Et ND Ho]; subst.
    + rewrite Et. destruct d; try contradiction; eexists; reflexivity.
    + exfalso. eapply Nv. reflexivity.
    + rewrite Et, isIndex_eq. cbn [bind]. destruct (forallb is_digit k) eqn:Ek; [|eexists; reflexivity]. cbn [negb].
      destruct (Sa k (or_introl eq_refl) (proj1 (digits_all k) Ek)) as (n & Nk). rewrite (proj2 (index_number _ _) Nk). cbn [bind].
      destruct (N.leb_spec (N.of_nat (length l)) n); [eexists; reflexivity|].
      destruct (nth_error l (N.to_nat n)) as [x|] eqn:Ex; [|apply nth_error_None in Ex; lia]. apply IH, Hl. eapply nth_error_In; eauto.
    + rewrite Et. destruct (afind k m) as [x|] eqn:Ek; [|eexists; reflexivity]. apply IH, (Hm k). now apply afind_In.
    + rewrite Et. destruct (field_named fs k) as [f|] eqn:Ef; [|eexists; reflexivity]. apply field_named_spec in Ef as (A & B); auto.
      destruct (Ho f A) as (x & -> & Wx). auto.
Qed.

(* ---- get ---- *)
(* like part, but every list on the way ends at the element the path goes to *)
Inductive trim (max : N) (e : env) : nat -> val -> path -> nat -> val -> Prop :=
| trim_all t v : trim max e t v [] t v
| trim_pointee t sm i x p u w : nth_error e t = Some (DPtr sm i) -> p <> [] -> trim max e i x p u w -> trim max e t (VPtr (Some x)) p u w
| trim_element t i l k n x p u w : nth_error e t = Some (DList i) -> number k n -> nth_error l (N.to_nat n) = Some x ->
    length l = S (N.to_nat n) -> (n < max)%N ->
    trim max e i x p u w -> trim max e t (VList l) (k :: p) u w
| trim_value t i m k x p u w : nth_error e t = Some (DMap i) -> map_set k x m = m -> trim max e i x p u w -> trim max e t (VMap m) (k :: p) u w
| trim_field t fs ini o k i x p u w : nth_error e t = Some (DObj fs ini) -> field_is fs k i -> afind k o = Some x ->
    trim max e i x p u w -> trim max e t (VObj o) (k :: p) u w.

Lemma map_set_fix_find k x m : map_set k x m = m -> afind k m = Some x.
Proof. intro H. rewrite <- H. apply afind_map_set_same. Qed.
Lemma trim_part max e t v p u w : trim max e t v p u w -> part e t v p u w.
Proof. induction 1; [apply part_all|eapply part_pointee|eapply part_element|eapply part_value|eapply part_field]; eauto. now apply map_set_fix_find. Qed.

Lemma get_trim max e p : (max < 2 ^ 64)%N -> unique_names e -> forall t v g, vget max e p false t v = Ok g ->
  g_const g = false /\ trim max e t (g_whole g) p (g_type g) (g_val g).
Proof.
  intros Hm U. induction p as [|k p IH]; intros t v g.
  - intro H. injection H as <-. split; [reflexivity|constructor].
  - revert t g. induction v as [x IHx|v Nv] using ptr_ind; intros t g H; rewrite vget_eq in H.
    + destruct (nth_error e t) as [d|] eqn:Et; [|discriminate]. destruct d as [| | | |sm i|i|i| |fs ini]; try discriminate.
      * rewrite const_behind_false in H. destruct (vget max e (k :: p) false i x) as [g1| | | |] eqn:E1; try discriminate. injection H as <-. apply IHx in E1 as (A & B).
        split; [exact A|]. cbn. eapply trim_pointee; eauto. discriminate.
      * destruct (field_named fs k); discriminate.
    + destruct (nth_error e t) as [d|] eqn:Et; [|discriminate]. destruct d as [| | | |sm i|i|i| |fs ini]; try discriminate.
      * destruct v as [| | | | |[x|]| | |]; try discriminate. exfalso. eapply Nv. reflexivity.
      * destruct v as [| | | | | | |m|]; try discriminate. 
        destruct (vget max e p false i match afind k m with Some x => x | None => dval e i end) as [g1| | | |] eqn:E1; try discriminate.
        injection H as <-. apply IH in E1 as (A & B). split; [exact A|]. cbn. eapply trim_value; eauto. apply map_set_set.
      * destruct v as [| | | | | |l| |]; try discriminate. destruct (index [k] 0) as [n| | | |] eqn:En; try discriminate. cbn [bind] in H. apply index_number in En.
        destruct (grow max e i l n) as [[l' x]| | | |] eqn:Eg; try discriminate. cbn [bind] in H.
        destruct (vget max e p false i x) as [g1| | | |] eqn:E1; try discriminate. injection H as <-. apply IH in E1 as (A & B). split; [exact A|]. cbn.
        assert (Hn : (n < 2 ^ 64)%N) by (destruct En as (_ & _ & _ & X); exact X).
        apply grow_spec in Eg as (G1 & G2 & G3); auto. cbn [fst snd] in *. 
        assert (Ln : length l' = S (N.to_nat n)) by (rewrite G2; apply resize_length).
        eapply trim_element; eauto; [apply nth_put_at; lia|rewrite put_at_length; exact Ln].
      * destruct (field_named fs k) as [f|] eqn:Ef; [|discriminate]. destruct v as [| | | | | | | |o]; try discriminate.
        apply (named_field_is _ _ _ (U _ _ _ Et)) in Ef as (Ek & Fi). rewrite Ek in H. destruct (afind k o) as [x|] eqn:Ex; [|discriminate].
        destruct (vget max e p false (f_type f) x) as [g1| | | |] eqn:E1; try discriminate. injection H as <-. apply IH in E1 as (A & B). split; [exact A|]. cbn.
        eapply trim_field; eauto. apply afind_aset_same.
Qed.

Lemma trim_get max e t v p u w : (max < 2 ^ 64)%N -> trim max e t v p u w -> vget max e p false t v = Ok (Got false u w v).
Proof.
  intro Hm. induction 1 as [t v|t sm i x p u w Et Np H IH|t i l k n x p u w Et Nk Ex Ln Lm H IH|t i m k x p u w Et Ek H IH|t fs ini o k i x p u w Et Fi Ek H IH].
  - reflexivity.
  - destruct p as [|k p]; [contradiction|]. rewrite vget_eq, Et, const_behind_false, IH. reflexivity.
  - rewrite vget_eq, Et, (proj2 (index_number _ _) Nk). cbn [bind].
    assert (Hn : (n < 2 ^ 64)%N) by (destruct Nk as (_ & _ & _ & X); exact X).
    assert (G : grow max e i l n = Ok (l, x)). { apply grow_spec; auto. cbn [fst snd]. repeat split; auto. now rewrite <- Ln, resize_same. }
    rewrite G. cbn [bind]. rewrite IH. cbn [bind g_whole in_whole g_const g_type g_val]. now rewrite put_same.
  - rewrite vget_eq, Et, (map_set_fix_find _ _ _ Ek), IH. cbn. now rewrite Ek.
  - rewrite vget_eq, Et. apply field_is_named in Fi as (f & -> & -> & ->). rewrite Ek, IH. cbn. now rewrite aset_same.
Qed.

Lemma within_nth max l n x : fold_right (fun x P => lists_within max x /\ P) True l -> nth_error l n = Some x -> lists_within max x.
Proof. revert n. induction l as [|y l IH]; intros [|n] F E; cbn in *; try discriminate; [injection E as ->|]; destruct F; eauto. Qed.
Lemma within_find max (m : list (str * val)) k x : fold_right (fun kx P => lists_within max (snd kx) /\ P) True m -> afind k m = Some x -> lists_within max x.
Proof.
  induction m as [|[k' y] m IH]; cbn; intros F E; [discriminate|]. destruct (str_eqb k k'); [injection E as ->|]; destruct F; eauto.
Qed.
Lemma part_get max e t v p u w : (max < 2 ^ 64)%N -> part e t v p u w -> lists_within max v ->
  exists v', vget max e p false t v = Ok (Got false u w v').
Proof.
  intros Hm. induction 1 as [t v|t sm i x p u w Et Np H IH|t i l k n x p u w Et Nk Ex H IH|t i m k x p u w Et Ek H IH|t fs ini o k i x p u w Et Fi Ek H IH]; intro B.
  - eexists. reflexivity.
  - destruct p as [|k p]; [contradiction|]. destruct IH as (v' & IH); [exact B|]. rewrite vget_eq, Et, const_behind_false, IH. eexists. reflexivity.
  - cbn in B. destruct B as (B1 & B2). destruct IH as (v' & IH); [eapply within_nth; eauto|].
    assert (Hn : (n < 2 ^ 64)%N) by (destruct Nk as (_ & _ & _ & X); exact X).
    assert (Ln : N.to_nat n < length l) by (apply nth_error_Some; congruence).
    rewrite vget_eq, Et, (proj2 (index_number _ _) Nk). cbn [bind].
    assert (G : grow max e i l n = Ok (resize_list e i l (S (N.to_nat n)), x)).
    { apply grow_spec; auto. cbn [fst snd]. repeat split; [lia|]. apply nth_resize; auto. }
    rewrite G. cbn [bind]. rewrite IH. eexists. reflexivity.
  - destruct IH as (v' & IH); [eapply within_find; eauto|]. rewrite vget_eq, Et, Ek, IH. eexists. reflexivity.
  - destruct IH as (v' & IH); [eapply within_find; eauto|]. rewrite vget_eq, Et. apply field_is_named in Fi as (f & -> & -> & ->). rewrite Ek, IH. eexists. reflexivity.
Qed.

Lemma part_app e t v p u w q u2 w2 : part e t v p u w -> part e u w q u2 w2 -> part e t v (p ++ q) u2 w2.
Proof.
  induction 1; intro Q; cbn [app]; [exact Q|eapply part_pointee|eapply part_element|eapply part_value|eapply part_field]; eauto.
  intro E. apply app_eq_nil in E as (E & _). contradiction.
Qed.
Lemma trim_app max e t v p u w q u2 w2 : trim max e t v p u w -> trim max e u w q u2 w2 -> trim max e t v (p ++ q) u2 w2.
Proof.
  induction 1; intro Q; cbn [app]; [exact Q|eapply trim_pointee|eapply trim_element|eapply trim_value|eapply trim_field]; eauto.
  intro E. apply app_eq_nil in E as (E & _). contradiction.
Qed.
Lemma trim_replace max e t v p u w x : trim max e t v p u w -> trim max e t (replace_part e p x t v) p u x.
Proof.
  induction 1 as [t v|t sm i y p u w Et Np H IH|t i l k n y p u w Et Nk Ex Ln Lm H IH|t i m k y p u w Et Ek H IH|t fs ini o k i y p u w Et Fi Ek H IH].
  - constructor.
  - destruct p as [|k p]; [contradiction|]. rewrite replace_eq, Et. eapply trim_pointee; eauto.
  - rewrite replace_eq, Et, (number_undec _ _ Nk), Ex. eapply trim_element; eauto; [apply nth_put_at; lia|now rewrite put_at_length].
  - rewrite replace_eq, Et, (map_set_fix_find _ _ _ Ek). eapply trim_value; eauto. apply map_set_set.
  - rewrite replace_eq, Et. pose proof Fi as Fi0. apply field_is_named in Fi as (f & -> & Ekf & <-). rewrite Ekf, Ek. eapply trim_field; eauto. apply afind_aset_same.
Qed.

Lemma get_app max e p q : (max < 2 ^ 64)%N -> unique_names e -> forall t v,
  vget max e (p ++ q) false t v =
  do g <- vget max e p false t v;
  do g2 <- vget max e q false (g_type g) (g_val g);
  Ok (in_whole g2 (replace_part e p (g_whole g2) t (g_whole g))).
Proof.
  intros Hm U. induction p as [|k p IH]; intros t v.
  - cbn [app vget bind g_type g_val g_whole replace_part]. destruct (vget max e q false t v) as [[]| | | |]; reflexivity.
  - revert t. cbn [app]. induction v as [x IHx|v Nv] using ptr_ind; intros t; rewrite (vget_eq _ _ _ (p ++ q)), (vget_eq _ _ _ p).
    + destruct (nth_error e t) as [d|] eqn:Et; [|reflexivity]. destruct d as [| | | |sm i|i|i| |fs ini]; try reflexivity.
      * rewrite const_behind_false, IHx. destruct (vget max e (k :: p) false i x) as [g| | | |]; cbn [bind]; try reflexivity.
        cbn [in_whole g_type g_val g_whole]. destruct (vget max e q false (g_type g) (g_val g)) as [g2| | | |]; cbn [bind]; try reflexivity.
        cbn [in_whole g_type g_val g_whole g_const]. now rewrite (replace_eq e k p _ t), Et.
      * destruct (field_named fs k); reflexivity.
    + destruct (nth_error e t) as [d|] eqn:Et; [|reflexivity]. destruct d as [| | | |sm i|i|i| |fs ini]; try reflexivity.
      * destruct v as [| | | | |[x|]| | |]; try reflexivity. exfalso. eapply Nv. reflexivity.
      * destruct v as [| | | | | | |m|]; try reflexivity. rewrite IH.
        destruct (vget max e p false i match afind k m with Some x => x | None => dval e i end) as [g| | | |]; cbn [bind]; try reflexivity.
        cbn [in_whole g_type g_val g_whole]. destruct (vget max e q false (g_type g) (g_val g)) as [g2| | | |]; cbn [bind]; try reflexivity.
        cbn [in_whole g_type g_val g_whole g_const]. rewrite replace_eq, Et, afind_map_set_same. now rewrite map_set_set.
      * destruct v as [| | | | | |l| |]; try reflexivity. destruct (index [k] 0) as [n| | | |] eqn:En; try reflexivity. cbn [bind]. apply index_number in En.
        destruct (grow max e i l n) as [[l' x]| | | |] eqn:Eg; try reflexivity. cbn [bind]. rewrite IH.
        destruct (vget max e p false i x) as [g| | | |]; cbn [bind]; try reflexivity.
        cbn [in_whole g_type g_val g_whole]. destruct (vget max e q false (g_type g) (g_val g)) as [g2| | | |]; cbn [bind]; try reflexivity.
        cbn [in_whole g_type g_val g_whole g_const]. 
        assert (Hn : (n < 2 ^ 64)%N) by (destruct En as (_ & _ & _ & X); exact X).
        apply grow_spec in Eg as (G1 & G2 & G3); auto. cbn [fst snd] in *.
        rewrite replace_eq, Et, (number_undec _ _ En), nth_put_at; [now rewrite put_put|]. rewrite G2, resize_length. lia.
      * destruct (field_named fs k) as [f|] eqn:Ef; [|reflexivity]. destruct v as [| | | | | | | |o]; try reflexivity.
        destruct (afind (f_key f) o) as [x|] eqn:Ex; [|reflexivity]. rewrite IH.
        destruct (vget max e p false (f_type f) x) as [g| | | |]; cbn [bind]; try reflexivity.
        cbn [in_whole g_type g_val g_whole]. destruct (vget max e q false (g_type g) (g_val g)) as [g2| | | |]; cbn [bind]; try reflexivity.
        cbn [in_whole g_type g_val g_whole g_const]. rewrite replace_eq, Et, Ef, afind_aset_same. now rewrite aset_aset.
Qed.

(* ---- set ---- *)
Lemma set1_get max e k ta x : (max < 2 ^ 64)%N -> unique_names e -> forall t v,
  vset1 max e k ta x false t v =
  do g <- vget max e [k] false t v;
  if Nat.eqb (g_type g) ta then Ok (replace_part e [k] x t (g_whole g)) else Abort.
Proof.
  intros Hm U t v. revert t. induction v as [y IHy|v Nv] using ptr_ind; intros t.
  - rewrite vget_eq. cbn [vset1]. destruct (nth_error e t) as [d|] eqn:Et; [|reflexivity]. destruct d as [| | | |sm i|i|i| |fs ini]; try reflexivity.
    + rewrite const_behind_false, IHy. destruct (vget max e [k] false i y) as [g| | | |]; cbn [bind]; try reflexivity.
      cbn [in_whole g_type g_val g_whole]. destruct (Nat.eqb (g_type g) ta); cbn [bind]; try reflexivity.
      now rewrite (replace_eq e k [] x t), Et.
    + destruct (field_named fs k); reflexivity.
  - rewrite vget_eq. assert (Eq : vset1 max e k ta x false t v = match nth_error e t with
      | None => UB
      | Some (DPtr sm i) => UB
      | Some (DList i) => match v with VList l => do n <- index [k] 0; do (l', _) <- grow max e i l n; do w <- assigned false i ta x; Ok (VList (put_at l' (N.to_nat n) w)) | _ => UB end
      | Some (DMap i) => match v with VMap m => do w <- assigned false i ta x; Ok (VMap (map_set k w m)) | _ => UB end
      | Some (DObj fs _) => match field_named fs k with None => Abort | Some f => match v with VObj o => 
          match afind (f_key f) o with Some _ => do w <- assigned false (f_type f) ta x; Ok (VObj (aset (f_key f) w o)) | None => UB end | _ => UB end end
      | Some _ => Abort end).
    { destruct v as [| | | | |[y|]| | |]; try (exfalso; eapply Nv; reflexivity); cbn [vset1]; destruct (nth_error e t) as [[]|]; reflexivity. }
    rewrite Eq. clear Eq. destruct (nth_error e t) as [d|] eqn:Et; [|reflexivity]. destruct d as [| | | |sm i|i|i| |fs ini]; try reflexivity.
    + destruct v as [| | | | |[y|]| | |]; try reflexivity. exfalso. eapply Nv. reflexivity.
    + destruct v as [| | | | | | |m|]; try reflexivity. cbn [vget bind in_whole g_type g_val g_whole]. unfold assigned.
      destruct (Nat.eqb i ta); cbn [bind]; [|reflexivity]. rewrite replace_eq, Et, afind_map_set_same. cbn [replace_part]. now rewrite map_set_set.
    + destruct v as [| | | | | |l| |]; try reflexivity. destruct (index [k] 0) as [n| | | |] eqn:En; try reflexivity. cbn [bind]. apply index_number in En.
      destruct (grow max e i l n) as [[l' y]| | | |] eqn:Eg; try reflexivity. cbn [bind vget in_whole g_type g_val g_whole]. unfold assigned.
      destruct (Nat.eqb i ta); cbn [bind]; [|reflexivity].
      assert (Hn : (n < 2 ^ 64)%N) by (destruct En as (_ & _ & _ & X); exact X).
      apply grow_spec in Eg as (G1 & G2 & G3); auto. cbn [fst snd] in *.
      rewrite replace_eq, Et, (number_undec _ _ En), nth_put_at; [cbn [replace_part]; now rewrite put_put|]. rewrite G2, resize_length. lia.
    + destruct (field_named fs k) as [f|] eqn:Ef; [|reflexivity]. destruct v as [| | | | | | | |o]; try reflexivity.
      destruct (afind (f_key f) o) as [y|] eqn:Ey; [|reflexivity]. cbn [vget bind in_whole g_type g_val g_whole]. unfold assigned.
      destruct (Nat.eqb (f_type f) ta); cbn [bind]; [|reflexivity].
      rewrite replace_eq, Et, Ef, afind_aset_same. cbn [replace_part]. now rewrite aset_aset.
Qed.

Lemma replace_app e p q w t v u y : part e t v p u y -> replace_part e (p ++ q) w t v = replace_part e p (replace_part e q w u y) t v.
Proof.
  induction 1 as [t v|t sm i x p u z Et Np H IH|t i l k n x p u z Et Nk Ex H IH|t i m k x p u z Et Ek H IH|t fs ini o k i x p u z Et Fi Ek H IH].
  - reflexivity.
  - destruct p as [|k p]; [contradiction|]. cbn [app] in *. rewrite (replace_eq e k (p ++ q) w t), (replace_eq e k p _ t), Et. now rewrite IH.
  - cbn [app]. rewrite !replace_eq, Et, (number_undec _ _ Nk), Ex. now rewrite IH.
  - cbn [app]. rewrite !replace_eq, Et, Ek. now rewrite IH.
  - cbn [app]. rewrite !replace_eq, Et. apply field_is_named in Fi as (f & -> & -> & <-). rewrite Ek. now rewrite IH.
Qed.
Lemma replace_replace max e t v p u y w w' : trim max e t v p u y -> replace_part e p w t (replace_part e p w' t v) = replace_part e p w t v.
Proof.
  induction 1 as [t v|t sm i x p u z Et Np H IH|t i l k n x p u z Et Nk Ex Ln Lm H IH|t i m k x p u z Et Ek H IH|t fs ini o k i x p u z Et Fi Ek H IH].
  - reflexivity.
  - destruct p as [|k p]; [contradiction|]. rewrite !(replace_eq e k p _ t), Et. now rewrite IH.
  - rewrite (replace_eq e k p w' t), Et, (number_undec _ _ Nk), Ex. rewrite !replace_eq, Et, (number_undec _ _ Nk), nth_put_at, Ex by lia. rewrite put_put. now rewrite IH.
  - apply map_set_fix_find in Ek. rewrite (replace_eq e k p w' t), Et, Ek. rewrite !replace_eq, Et, afind_map_set_same, Ek, map_set_set. now rewrite IH.
  - apply field_is_named in Fi as (f & Ef & Ekf & <-). rewrite (replace_eq e k p w' t), Et, Ef, Ekf, Ek.
    rewrite !replace_eq, Et, Ef, Ekf, afind_aset_same, Ek, aset_aset. now rewrite IH.
Qed.

(* set is get of the whole path followed by an assignment to what it gives *)
Lemma set_is_get max e p ta x t v : (max < 2 ^ 64)%N -> unique_names e -> p <> [] ->
  vset max e p ta x false t v =
  do g <- vget max e p false t v;
  if Nat.eqb (g_type g) ta then Ok (replace_part e p x t (g_whole g)) else Abort.
Proof.
  intros Hm U Np. destruct (exists_last Np) as (q & k & ->). unfold vset.
  assert (P : popBack (q ++ [k]) = Ok q) by (unfold popBack; destruct (q ++ [k]) eqn:Eq; [destruct q; discriminate|]; rewrite <- Eq, removelast_last; reflexivity).
  rewrite P, last_last, get_app by auto. cbn [bind]. destruct (vget max e q false t v) as [g| | | |] eqn:Eg; cbn [bind]; try reflexivity.
  destruct (get_trim _ _ _ Hm U _ _ _ Eg) as (Cg & Tg). rewrite Cg, set1_get by auto.
  destruct (vget max e [k] false (g_type g) (g_val g)) as [g2| | | |] eqn:E2; cbn [bind]; try reflexivity. cbn [in_whole g_type g_whole].
  destruct (Nat.eqb (g_type g2) ta); cbn [bind]; [|reflexivity].
  pose proof (trim_replace _ _ _ _ _ _ _ (g_whole g2) Tg) as Tr.
  rewrite (replace_app _ _ _ _ _ _ _ _ (trim_part _ _ _ _ _ _ _ Tr)), (replace_replace _ _ _ _ _ _ _ _ _ Tg). reflexivity.
Qed.

(* ---- what stays ---- *)
Lemma nth_resize_before e i l n m x : nth_error l m = Some x -> m < n -> nth_error (resize_list e i l (S n)) m = Some x.
Proof. intros. apply nth_resize; auto. Qed.
Lemma apart_nonempty e t v p q : apart e t v p q -> p <> [] /\ q <> [].
Proof. induction 1; try (split; discriminate). exact IHapart. Qed.
Lemma field_fun fs k i j : field_is fs k i -> field_is fs k j -> i = j.
Proof. intros A B. apply field_is_named in A as (f & F & _ & <-). apply field_is_named in B as (g & G & _ & <-). congruence. Qed.

Lemma get_keeps max e t v p q : (max < 2 ^ 64)%N -> unique_names e -> apart e t v p q -> forall g u w,
  vget max e p false t v = Ok g -> part e t v q u w -> part e t (g_whole g) q u w /\ apart e t (g_whole g) p q.
Proof.
  intros Hm U A. induction A as [t sm i x p q Et H IH|t i l k1 n1 p k2 n2 q Et K1 K2 L|t i m k1 p k2 q Et N|t fs ini o k1 p k2 q Et N|
    t i l k1 k2 n x p q Et K1 K2 Ex H IH|t i m k x p q Et Ek H IH|t fs ini o k i x p q Et Fi Ek H IH]; intros g u w G Pq.
  - destruct (apart_nonempty _ _ _ _ _ H) as (Np & Nq). destruct p as [|k p]; [contradiction|].
    rewrite vget_eq, Et, const_behind_false in G. destruct (vget max e (k :: p) false i x) as [g1| | | |] eqn:E1; try discriminate. injection G as <-.
    inversion Pq as [|t0 sm0 i0 x0 p0 u0 w0 Et0 _ Q| | |]; subst; [contradiction|]. rewrite Et in Et0. injection Et0 as <- <-.
    destruct (IH _ _ _ eq_refl Q) as (A & B). cbn. split; [eapply part_pointee; eauto|eapply apart_pointee; eauto].
  - rewrite vget_eq, Et, (proj2 (index_number _ _) K1) in G. cbn [bind] in G. destruct (grow max e i l n1) as [[l' x]| | | |] eqn:Eg; try discriminate. cbn [bind] in G.
    destruct (vget max e p false i x) as [g1| | | |] eqn:E1; try discriminate. injection G as <-. cbn.
    assert (Hn : (n1 < 2 ^ 64)%N) by (destruct K1 as (_ & _ & _ & X); exact X).
    apply grow_spec in Eg as (G1 & G2 & G3); auto. cbn [fst snd] in *.
    split; [|eapply apart_before; eauto]. inversion Pq as [| |t0 i0 l0 k0 n0 y p0 u0 w0 Et0 K0 Ey Q| |]; subst. rewrite Et in Et0. injection Et0 as <-.
    pose proof (number_fun _ _ _ K0 K2) as Enum; subst. eapply part_element; eauto. rewrite nth_put_other by lia. apply nth_resize; [exact Ey|lia].
  - rewrite vget_eq, Et in G. destruct (vget max e p false i match afind k1 m with Some x => x | None => dval e i end) as [g1| | | |] eqn:E1; try discriminate.
    injection G as <-. cbn. split; [|eapply apart_value; eauto]. inversion Pq as [| | |t0 i0 m0 k0 y p0 u0 w0 Et0 Ey Q|]; subst. rewrite Et in Et0. injection Et0 as <-.
    eapply part_value; eauto. rewrite afind_map_set_other; auto.
  - rewrite vget_eq, Et in G. destruct (field_named fs k1) as [f|] eqn:Ef; [|discriminate].
    apply (named_field_is _ _ _ (U _ _ _ Et)) in Ef as (Ekf & Fi). rewrite Ekf in G. destruct (afind k1 o) as [x|] eqn:Ex; [|discriminate].
    destruct (vget max e p false (f_type f) x) as [g1| | | |] eqn:E1; try discriminate. injection G as <-. cbn. split; [|eapply apart_field; eauto].
    inversion Pq as [| | | |t0 fs0 ini0 o0 k0 i0 y p0 u0 w0 Et0 Fi0 Ey Q]; subst. eapply part_field; eauto. rewrite afind_aset_other; auto.
  - rewrite vget_eq, Et, (proj2 (index_number _ _) K1) in G. cbn [bind] in G. destruct (grow max e i l n) as [[l' x']| | | |] eqn:Eg; try discriminate. cbn [bind] in G.
    destruct (vget max e p false i x') as [g1| | | |] eqn:E1; try discriminate. injection G as <-. cbn.
    assert (Hn : (n < 2 ^ 64)%N) by (destruct K1 as (_ & _ & _ & X); exact X).
    apply grow_spec in Eg as (G1 & G2 & G3); auto. cbn [fst snd] in *.
    assert (x' = x) as ->. { rewrite G2 in G3. rewrite (nth_resize e i l _ _ _ Ex) in G3 by lia. congruence. }
    inversion Pq as [| |t0 i0 l0 k0 n0 y p0 u0 w0 Et0 K0 Ey Q| |]; subst. rewrite Et in Et0. injection Et0 as <-.
    pose proof (number_fun _ _ _ K0 K2) as Enum; subst. rewrite Ex in Ey. injection Ey as <-. destruct (IH _ _ _ E1 Q) as (A & B).
    assert (Nt : nth_error (put_at (resize_list e i l (S (N.to_nat n))) (N.to_nat n) (g_whole g1)) (N.to_nat n) = Some (g_whole g1)) by (apply nth_put_at; rewrite resize_length; lia).
    split; [eapply part_element; eauto|eapply apart_in_element; eauto].
  - rewrite vget_eq, Et, Ek in G. destruct (vget max e p false i x) as [g1| | | |] eqn:E1; try discriminate. injection G as <-. cbn.
    inversion Pq as [| | |t0 i0 m0 k0 y p0 u0 w0 Et0 Ey Q|]; subst. rewrite Et in Et0. injection Et0 as <-. rewrite Ek in Ey. injection Ey as <-.
    destruct (IH _ _ _ eq_refl Q) as (A & B). pose proof (afind_map_set_same k (g_whole g1) m) as F.
    split; [eapply part_value; eauto|eapply apart_in_value; eauto].
  - rewrite vget_eq, Et in G. pose proof (field_is_named _ _ _ Fi) as (f & Ef & Ekf & Eti). rewrite Ef, Ekf, Ek, Eti in G. clear Ef Ekf Eti.
    destruct (vget max e p false i x) as [g1| | | |] eqn:E1; try discriminate. injection G as <-. cbn.
    inversion Pq as [| | | |t0 fs0 ini0 o0 k0 i0 y p0 u0 w0 Et0 Fi0 Ey Q]; subst. rewrite Et in Et0. injection Et0 as <- <-. rewrite Ek in Ey. injection Ey as <-.
    pose proof (field_fun _ _ _ _ Fi0 Fi) as Efi; subst; clear Fi0. destruct (IH _ _ _ eq_refl Q) as (A & B). pose proof (afind_aset_same k (g_whole g1) o) as F.
    split; [eapply part_field; eauto|eapply apart_in_field; eauto].
Qed.

Lemma replace_keeps e t v p q y u w z uz : part e t v p uz z -> apart e t v p q -> part e t v q u w -> part e t (replace_part e p y t v) q u w.
Proof.
  intros Pp A. revert Pp. induction A as [t sm i x p q Et H IH|t i l k1 n1 p k2 n2 q Et K1 K2 L|t i m k1 p k2 q Et N|t fs ini o k1 p k2 q Et N|
    t i l k1 k2 n x p q Et K1 K2 Ex H IH|t i m k x p q Et Ek H IH|t fs ini o k i x p q Et Fi Ek H IH]; intros Pp Pq.
  - destruct (apart_nonempty _ _ _ _ _ H) as (Np & Nq). destruct p as [|k p]; [contradiction|]. rewrite replace_eq, Et.
    inversion Pq as [|t0 sm0 i0 x0 p0 u0 w0 Et0 _ Q| | |]; subst; [contradiction|]. rewrite Et in Et0. injection Et0 as <- <-.
    inversion Pp as [|t0 sm0 i0 x0 p0 u0 w0 Et0 _ Q0| | |]; subst. rewrite Et in Et0. injection Et0 as <- <-.
    eapply part_pointee; eauto.
  - rewrite replace_eq, Et, (number_undec _ _ K1). inversion Pp as [| |t0 i0 l0 k0 n0 y0 p0 u0 w0 Et0 K0 Ey0 Q0| |]; subst.
    pose proof (number_fun _ _ _ K0 K1) as Enum; subst. rewrite Ey0.
    inversion Pq as [| |t0 i1 l0 k0 n3 y1 p0 u0 w0 Et1 K3 Ey Q| |]; subst. rewrite Et in Et1. injection Et1 as <-.
    pose proof (number_fun _ _ _ K3 K2) as Enum; subst. refine (part_element _ _ _ _ _ _ _ _ _ _ Et K2 _ Q). rewrite nth_put_other by lia. exact Ey.
  - rewrite replace_eq, Et. inversion Pp as [| | |t0 i0 m0 k0 y0 p0 u0 w0 Et0 Ey0 Q0|]; subst. rewrite Ey0.
    inversion Pq as [| | |t0 i1 m0 k0 y1 p0 u0 w0 Et1 Ey Q|]; subst. rewrite Et in Et1. injection Et1 as <-.
    refine (part_value _ _ _ _ _ _ _ _ _ Et _ Q). rewrite afind_map_set_other; auto.
  - rewrite replace_eq, Et. inversion Pp as [| | | |t0 fs0 ini0 o0 k0 i0 y0 p0 u0 w0 Et0 Fi0 Ey0 Q0]; subst. rewrite Et in Et0. injection Et0 as <- <-.
    apply field_is_named in Fi0 as (f & -> & -> & _). rewrite Ey0.
    inversion Pq as [| | | |t0 fs1 ini1 o0 k0 i1 y1 p0 u0 w0 Et1 Fi1 Ey Q]; subst. refine (part_field _ _ _ _ _ _ _ _ _ _ _ Et1 Fi1 _ Q). rewrite afind_aset_other; auto.
  - rewrite replace_eq, Et, (number_undec _ _ K1), Ex.
    inversion Pp as [| |t0 i0 l0 k0 n0 y0 p0 u0 w0 Et0 K0 Ey0 Q0| |]; subst. rewrite Et in Et0. injection Et0 as <-. pose proof (number_fun _ _ _ K0 K1) as Enum; subst. rewrite Ex in Ey0. injection Ey0 as <-.
    inversion Pq as [| |t0 i1 l0 k0 n3 y1 p0 u0 w0 Et1 K3 Ey Q| |]; subst. rewrite Et in Et1. injection Et1 as <-. pose proof (number_fun _ _ _ K3 K2) as Enum; subst. rewrite Ex in Ey. injection Ey as <-.
    refine (part_element _ _ _ _ _ _ _ _ _ _ Et K2 _ (IH Q0 Q)). apply nth_put_at. apply nth_error_Some. congruence.
  - rewrite replace_eq, Et, Ek. inversion Pp as [| | |t0 i0 m0 k0 y0 p0 u0 w0 Et0 Ey0 Q0|]; subst. rewrite Et in Et0. injection Et0 as <-. rewrite Ek in Ey0. injection Ey0 as <-.
    inversion Pq as [| | |t0 i1 m0 k0 y1 p0 u0 w0 Et1 Ey Q|]; subst. rewrite Et in Et1. injection Et1 as <-. rewrite Ek in Ey. injection Ey as <-.
    refine (part_value _ _ _ _ _ _ _ _ _ Et _ (IH Q0 Q)). apply afind_map_set_same.
  - rewrite replace_eq, Et. pose proof (field_is_named _ _ _ Fi) as (f & Ef & Ekf & Eti). rewrite Ef, Ekf, Ek, Eti. clear Ef Ekf Eti.
    inversion Pp as [| | | |t0 fs0 ini0 o0 k0 i0 y0 p0 u0 w0 Et0 Fi0 Ey0 Q0]; subst. rewrite Et in Et0. injection Et0 as <- <-. rewrite Ek in Ey0. injection Ey0 as <-.
    pose proof (field_fun _ _ _ _ Fi0 Fi) as Efi; subst; clear Fi0.
    inversion Pq as [| | | |t0 fs1 ini1 o0 k0 i1 y1 p0 u0 w0 Et1 Fi1 Ey Q]; subst. rewrite Et in Et1. injection Et1 as <- <-. rewrite Ek in Ey. injection Ey as <-.
    pose proof (field_fun _ _ _ _ Fi1 Fi) as Efi; subst; clear Fi1. refine (part_field _ _ _ _ _ _ _ _ _ _ _ Et Fi _ (IH Q0 Q)). apply afind_aset_same.
Qed.

(* ---- const ---- *)
Lemma get_const max e p : unique_names e -> forall c t v g, vget max e p c t v = Ok g -> g_const g = true -> c = true /\ g_whole g = v /\ part e t v p (g_type g) (g_val g).
Proof.
  intro U. induction p as [|k p IH]; intros c t v g.
  - intro H. injection H as <-. cbn. intros ->. repeat split. constructor.
  - revert c t g. induction v as [x IHx|v Nv] using ptr_ind; intros c t g H Cg; rewrite vget_eq in H.
    + destruct (nth_error e t) as [d|] eqn:Et; [|discriminate]. destruct d as [| | | |sm i|i|i| |fs ini]; try discriminate.
      * destruct (vget max e (k :: p) (const_behind sm c) i x) as [g1| | | |] eqn:E1; try discriminate. injection H as <-. cbn in *.
        destruct (IHx _ _ _ E1 Cg) as (A & -> & B). split; [|split; [reflexivity|eapply part_pointee; eauto; discriminate]]. destruct sm; [discriminate|exact A].
      * destruct (field_named fs k); discriminate.
    + destruct (nth_error e t) as [d|] eqn:Et; [|discriminate]. destruct d as [| | | |sm i|i|i| |fs ini]; try discriminate.
      * destruct v as [| | | | |[x|]| | |]; try discriminate. exfalso. eapply Nv. reflexivity.
      * destruct v as [| | | | | | |m|]; try discriminate. destruct c; [discriminate|]. 
        destruct (vget max e p false i match afind k m with Some x => x | None => dval e i end) as [g1| | | |] eqn:E1; try discriminate. injection H as <-.
        destruct (IH _ _ _ _ E1 Cg) as (A & _). discriminate.
      * destruct v as [| | | | | |l| |]; try discriminate. destruct (index [k] 0) as [n| | | |]; try discriminate. cbn [bind] in H. destruct c; [discriminate|].
        destruct (grow max e i l n) as [[l' x]| | | |]; try discriminate. cbn [bind] in H. destruct (vget max e p false i x) as [g1| | | |] eqn:E1; try discriminate. injection H as <-.
        destruct (IH _ _ _ _ E1 Cg) as (A & _). discriminate.
      * destruct (field_named fs k) as [f|] eqn:Ef; [|discriminate]. destruct v as [| | | | | | | |o]; try discriminate.
        apply (named_field_is _ _ _ (U _ _ _ Et)) in Ef as (Ek & Fi). rewrite Ek in H. destruct (afind k o) as [x|] eqn:Ex; [|discriminate].
        destruct (vget max e p c (f_type f) x) as [g1| | | |] eqn:E1; try discriminate. injection H as <-. cbn in *.
        destruct (IH _ _ _ _ E1 Cg) as (A & -> & B). split; [exact A|]. split; [now rewrite aset_same|eapply part_field; eauto].
Qed.

(* ---- the part at a path, read without changing anything ---- *)
Lemma part_at_eq e k p t v : part_at e (k :: p) t v =
  match nth_error e t, v with
  | Some (DPtr _ i), VPtr (Some x) => part_at e (k :: p) i x
  | Some (DList i), VList l => match nth_error l (N.to_nat (undec k)) with Some x => part_at e p i x | None => None end
  | Some (DMap i), VMap m => match afind k m with Some x => part_at e p i x | None => None end
  | Some (DObj fs _), VObj o =>
    match field_named fs k with
    | Some f => match afind (f_key f) o with Some x => part_at e p (f_type f) x | None => None end
    | None => None
    end
  | _, _ => None
  end.
Proof. destruct v as [| | | | |[x|]| | |]; reflexivity. Qed.
Lemma part_part_at e t v p u w : part e t v p u w -> part_at e p t v = Some (u, w).
Proof.
  induction 1 as [t v|t sm i x p u z Et Np H IH|t i l k n x p u z Et Nk Ex H IH|t i m k x p u z Et Ek H IH|t fs ini o k i x p u z Et Fi Ek H IH].
  - reflexivity.
  - destruct p as [|k p]; [contradiction|]. now rewrite part_at_eq, Et.
  - now rewrite part_at_eq, Et, (number_undec _ _ Nk), Ex.
  - now rewrite part_at_eq, Et, Ek.
  - rewrite part_at_eq, Et. apply field_is_named in Fi as (f & -> & -> & ->). now rewrite Ek.
Qed.

(* ---- const, when nothing takes it away ---- *)
Lemma get_stays_const max e p : (forall t i, nth_error e t <> Some (DPtr true i)) -> forall t v g, vget max e p true t v = Ok g -> g_const g = true.
Proof.
  intro NS. induction p as [|k p IH]; intros t v g.
  - intro H. injection H as <-. reflexivity.
  - revert t g. induction v as [x IHx|v Nv] using ptr_ind; intros t g H; rewrite vget_eq in H.
    + destruct (nth_error e t) as [d|] eqn:Et; [|discriminate]. destruct d as [| | | |sm i|i|i| |fs ini]; try discriminate.
      * destruct sm; [exfalso; eapply NS; eauto|]. cbn [const_behind] in H.
        destruct (vget max e (k :: p) true i x) as [g1| | | |] eqn:E1; try discriminate. injection H as <-. cbn. eauto.
      * destruct (field_named fs k); discriminate.
    + destruct (nth_error e t) as [d|] eqn:Et; [|discriminate]. destruct d as [| | | |sm i|i|i| |fs ini]; try discriminate.
      * destruct v as [| | | | |[x|]| | |]; try discriminate. exfalso. eapply Nv. reflexivity.
      * destruct v; discriminate.
      * destruct v; try discriminate. destruct (index [k] 0); discriminate.
      * destruct (field_named fs k) as [f|]; [|discriminate]. destruct v as [| | | | | | | |o]; try discriminate. destruct (afind (f_key f) o) as [x|]; [|discriminate].
        destruct (vget max e p true (f_type f) x) as [g1| | | |] eqn:E1; try discriminate. injection H as <-. cbn. eauto.
Qed.
Lemma set1_const max e k ta x : (forall t i, nth_error e t <> Some (DPtr true i)) -> forall t v v', vset1 max e k ta x true t v <> Ok v'.
Proof.
  intros NS t v. revert t. induction v as [y IHy|v Nv] using ptr_ind; intros t v' H.
  - cbn [vset1] in H. destruct (nth_error e t) as [d|] eqn:Et; [|discriminate]. destruct d as [| | | |sm i|i|i| |fs ini]; try discriminate.
    + destruct sm; [eapply NS; eauto|]. cbn [const_behind] in H. destruct (vset1 max e k ta x true i y) as [w| | | |] eqn:E; try discriminate. eapply IHy. exact E.
    + destruct (field_named fs k); discriminate.
  - destruct v as [| | | | |[y|]| | |]; try (eapply Nv; reflexivity); cbn [vset1] in H; destruct (nth_error e t) as [[]|]; try discriminate;
      try (destruct (index [k] 0); discriminate); try (destruct (field_named fs k) as [f|]; discriminate).
    match goal with H : context [match field_named ?a ?b with _ => _ end] |- _ => destruct (field_named a b) as [f|]; try discriminate end. match goal with H : context [match afind ?a ?b with _ => _ end] |- _ => destruct (afind a b); discriminate end.
Qed.

Lemma part_replace e t v p u w x : part e t v p u w -> part e t (replace_part e p x t v) p u x.
Proof.
  induction 1 as [t v|t sm i y p u w Et Np H IH|t i l k n y p u w Et Nk Ex H IH|t i m k y p u w Et Ek H IH|t fs ini o k i y p u w Et Fi Ek H IH].
  - constructor.
  - destruct p as [|k p]; [contradiction|]. rewrite replace_eq, Et. eapply part_pointee; eauto.
  - rewrite replace_eq, Et, (number_undec _ _ Nk), Ex. refine (part_element _ _ _ _ _ _ _ _ _ _ Et Nk _ IH). apply nth_put_at. apply nth_error_Some. congruence.
  - rewrite replace_eq, Et, Ek. refine (part_value _ _ _ _ _ _ _ _ _ Et _ IH). apply afind_map_set_same.
  - rewrite replace_eq, Et. pose proof Fi as Fi0. apply field_is_named in Fi as (f & -> & Ekf & <-). rewrite Ekf, Ek. refine (part_field _ _ _ _ _ _ _ _ _ _ _ Et Fi0 _ IH). apply afind_aset_same.
Qed.
Lemma part_replace_replace e t v p u y w w' : part e t v p u y -> replace_part e p w t (replace_part e p w' t v) = replace_part e p w t v.
Proof.
  induction 1 as [t v|t sm i x p u z Et Np H IH|t i l k n x p u z Et Nk Ex H IH|t i m k x p u z Et Ek H IH|t fs ini o k i x p u z Et Fi Ek H IH].
  - reflexivity.
  - destruct p as [|k p]; [contradiction|]. rewrite !(replace_eq e k p _ t), Et. now rewrite IH.
  - assert (L : N.to_nat n < length l) by (apply nth_error_Some; congruence).
    rewrite (replace_eq e k p w' t), Et, (number_undec _ _ Nk), Ex. rewrite !replace_eq, Et, (number_undec _ _ Nk), nth_put_at, Ex by exact L. rewrite put_put. now rewrite IH.
  - rewrite (replace_eq e k p w' t), Et, Ek. rewrite !replace_eq, Et, afind_map_set_same, Ek, map_set_set. now rewrite IH.
  - apply field_is_named in Fi as (f & Ef & Ekf & <-). rewrite (replace_eq e k p w' t), Et, Ef, Ekf, Ek.
    rewrite !replace_eq, Et, Ef, Ekf, afind_aset_same, Ek, aset_aset. now rewrite IH.
Qed.
