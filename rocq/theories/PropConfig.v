(* PropConfig.v - C44, C45, C46, C51 *)
From Coq Require String. Import String.StringSyntax.
From Verif Require SpecJson.
From Verif Require Import Base Dec ModelConfig SpecConfig.
Local Open Scope outcome_scope.

(* ---- cut ---- *)
Lemma cut_spec sep s : let '(a, r) := cut sep s in ~ In sep a /\ s = a ++ match r with None => [] | Some t => sep :: t end.
Proof.
  induction s as [|c s IH]; cbn [cut]; [auto|]. destruct (N.eqb_spec c sep) as [->|Ne]; [cbn; auto|].
  destruct (cut sep s) as (a & r). destruct IH as (H & ->). split; [|reflexivity]. intros [<-|Q]; [congruence|contradiction].
Qed.
Lemma cut_app sep a t : ~ In sep a -> cut sep (a ++ sep :: t) = (a, Some t).
Proof.
  induction a as [|c a IH]; intro H; cbn [app cut]; [now rewrite N.eqb_refl|].
  destruct (N.eqb_spec c sep) as [->|Ne]; [elim H; now left|]. rewrite IH; auto. intro Q. apply H. now right.
Qed.
Lemma cut_end sep a : ~ In sep a -> cut sep a = (a, None).
Proof.
  induction a as [|c a IH]; intro H; cbn [cut]; auto. destruct (N.eqb_spec c sep) as [->|Ne]; [elim H; now left|].
  rewrite IH; auto. intro Q. apply H. now right.
Qed.

Lemma to_string_false sep p : p <> [] -> to_string_from false sep p = sep :: to_string p sep.
Proof. destruct p; [congruence|reflexivity]. Qed.
Lemma to_string_cons sep x p : to_string (x :: p) sep = x ++ match p with [] => [] | _ => sep :: to_string p sep end.
Proof. unfold to_string. cbn [to_string_from app]. destruct p; auto. Qed.

Lemma parse_f_print sep : forall p fuel items, length (to_string p sep) < fuel -> Forall (component_ok sep) p ->
  parse_f fuel sep items (to_string p sep) = Ok (items ++ p).
Proof.
  induction p as [|x p IH]; intros fuel items L F; (destruct fuel as [|fuel]; [lia|]).
  - cbn. now rewrite app_nil_r.
  - inversion F as [|? ? (N1 & N2) F']; subst. rewrite to_string_cons in *. cbn [parse_f].
    destruct p as [|y p].
    + rewrite app_nil_r. rewrite cut_end by auto. destruct x; [congruence|]. reflexivity.
    + rewrite cut_app by auto. rewrite app_length in L. cbn [length] in L.
      destruct x as [|c x]; [congruence|]. cbn [app]. rewrite IH; auto; [|lia]. now rewrite <- app_assoc.
Qed.

Lemma parse_f_Ok sep : forall fuel items s r, length s < fuel -> parse_f fuel sep items s = Ok r ->
  exists p, r = items ++ p /\ Forall (component_ok sep) p /\ (s = to_string p sep \/ (p <> [] /\ s = to_string p sep ++ [sep])).
Proof.
  induction fuel as [|fuel IH]; intros items s r L E; [lia|]. cbn [parse_f] in E.
  destruct s as [|c s]; [injection E as <-; exists []; rewrite app_nil_r; auto|].
  pose proof (cut_spec sep (c :: s)) as C. destruct (cut sep (c :: s)) as (a & t). destruct C as (Na & Es).
  destruct a as [|d a]; [discriminate|]. destruct t as [t|].
  - assert (Lt : length t < fuel) by (rewrite Es, app_length in L; cbn [length] in L; lia).
    destruct (IH _ _ _ Lt E) as (p & -> & F & Q). exists ((d :: a) :: p). rewrite <- app_assoc. split; auto. split.
    { constructor; auto. split; [discriminate|auto]. }
    rewrite to_string_cons. destruct Q as [->|(Np & ->)].
    + destruct p as [|y p].
      * right. split; [discriminate|]. rewrite Es. cbn. now rewrite app_nil_r.
      * left. exact Es.
    + destruct p as [|y p]; [congruence|]. right. split; [discriminate|]. rewrite Es, <- app_assoc. reflexivity.
  - injection E as <-. exists [d :: a]. split; auto. split.
    { constructor; auto. split; [discriminate|auto]. }
    left. rewrite to_string_cons. exact Es.
Qed.

Definition has_empty_component (sep : byte) (s : str) : Prop :=
  (exists t, s = sep :: t) \/ (exists a t, s = a ++ sep :: sep :: t).

Lemma parse_f_outcome sep : forall fuel items s, length s < fuel ->
  (exists r, parse_f fuel sep items s = Ok r) /\ ~ has_empty_component sep s \/
  parse_f fuel sep items s = Abort /\ has_empty_component sep s.
Proof.
  induction fuel as [|fuel IH]; intros items s L; [lia|]. cbn [parse_f].
  destruct s as [|c s].
  { left. split; [eauto|]. intros [(t & Q)|(a & t & Q)]; [discriminate|destruct a; discriminate]. }
  pose proof (cut_spec sep (c :: s)) as C. destruct (cut sep (c :: s)) as (a & t). destruct C as (Na & Es). rewrite Es in *.
  destruct a as [|d a].
  - right. split; auto. left. destruct t as [t|]; [eexists; reflexivity|discriminate].
  - destruct t as [t|].
    + assert (Lt : length t < fuel) by (rewrite app_length in L; cbn [length] in L; lia).
      assert (K : has_empty_component sep ((d :: a) ++ sep :: t) <-> has_empty_component sep t).
      { split.
        - intros [(u & Q)|(b & u & Q)].
          + injection Q as -> _. elim Na. now left.
          + revert b Q Na. generalize (d :: a) as z. induction z as [|e z IHz]; intros b Q Nz.
            * destruct b as [|e b]; cbn in Q.
              -- injection Q as ->. left. eauto.
              -- injection Q as <- Q. right. exists b, u. exact Q.
            * destruct b as [|e' b]; cbn in Q; injection Q as -> Q; [elim Nz; now left|].
              apply (IHz b); auto. intro; apply Nz; now right.
        - intros [(u & ->)|(b & u & ->)].
          + right. exists (d :: a), u. reflexivity.
          + right. exists ((d :: a) ++ sep :: b), u. now rewrite <- app_assoc. }
      rewrite K. apply IH; auto.
    + rewrite app_nil_r. left. split; [eauto|]. intros [(u & Q)|(b & u & Q)].
      * injection Q as -> _. elim Na. now left.
      * rewrite Q in Na. apply Na. apply in_or_app. right. now left.
Qed.

(* ===== C44 ===== *)
Theorem c44_print_then_parse : forall sep p, Forall (component_ok sep) p -> path_of (to_string p sep) sep = Ok p.
Proof. intros sep p F. unfold path_of. rewrite parse_f_print by (auto; lia). reflexivity. Qed.
Print Assumptions c44_print_then_parse.

Theorem c44_parse_then_print : forall sep s p, path_of s sep = Ok p ->
  Forall (component_ok sep) p /\ (s = to_string p sep \/ (p <> [] /\ s = to_string p sep ++ [sep])).
Proof. intros sep s p E. apply parse_f_Ok in E as (q & -> & F & Q); [|lia]. auto. Qed.
Print Assumptions c44_parse_then_print.

Theorem c44_fails_only_on_empty_component : forall sep s,
  (path_of s sep = Abort <-> has_empty_component sep s) /\ ((exists p, path_of s sep = Ok p) <-> ~ has_empty_component sep s).
Proof.
  intros sep s. unfold path_of. destruct (parse_f_outcome sep (Datatypes.S (length s)) [] s ltac:(lia)) as [((p & E) & N)|(E & N)]; rewrite E.
  - split; split; auto; [discriminate|contradiction|eauto].
  - split; split; auto; [intros (p & Q); discriminate|contradiction].
Qed.
Print Assumptions c44_fails_only_on_empty_component.

(* Path(prefix, text): the components of the text after those of the prefix *)
Theorem c44_join_appends : forall sep prefix s p, path_join prefix s sep = Ok p <-> exists q, path_of s sep = Ok q /\ p = prefix ++ q.
Proof.
  intros sep prefix s p. unfold path_join, path_of.
  assert (G : forall fuel i1 i2 t, parse_f fuel sep (i1 ++ i2) t = do q <- parse_f fuel sep i2 t; Ok (i1 ++ q)).
  { induction fuel as [|fuel IH]; intros i1 i2 t; [reflexivity|]. cbn [parse_f]. destruct t; [reflexivity|].
    destruct (cut sep (b :: t)) as ([|d a] & [u|]); auto; rewrite <- app_assoc; [apply IH|reflexivity]. }
  specialize (G (Datatypes.S (length s)) prefix [] s). rewrite app_nil_r in G. rewrite G. split.
  - intro E. apply bind_Ok in E as (q & E1 & E2). injection E2 as <-. eauto.
  - intros (q & E & ->). rewrite E. reflexivity.
Qed.
Print Assumptions c44_join_appends.

Theorem c44_pop : forall x (p : path), popFront (x :: p) = Ok p /\ popBack (p ++ [x]) = Ok p /\ popFront [] = Abort /\ popBack [] = Abort.
Proof. intros x p. repeat split. unfold popBack. rewrite removelast_last. now destruct p. Qed.
Print Assumptions c44_pop.

Example c44_ex : path_of (lit "a.bc.0") dot = Ok [lit "a"; lit "bc"; lit "0"] /\ path_of (lit "a.") dot = Ok [lit "a"] /\
  path_of (lit "a..b") dot = Abort /\ path_of (lit ".") dot = Abort /\ path_of (lit "a.b") 47%N = Ok [lit "a.b"].
Proof. repeat split. Qed.

(* ===== C51: indices as components ===== *)
Theorem c51_index_round_trip : forall prefix i, (i < 2 ^ 64)%N ->
  isIndex (path_index prefix i) (length prefix) = Ok true /\ index (path_index prefix i) (length prefix) = Ok i /\
  (component_ok 46%N (dec i)).
Proof.
  intros prefix i L. unfold isIndex, index, path_index. rewrite nth_error_app2, Nat.sub_diag by lia. cbn [nth_error].
  assert (F : forallb is_digit (dec i) = true).
  { apply forallb_forall. intros c Hc. pose proof (dec_digits i) as D. rewrite Forall_forall in D. auto. }
  rewrite F. split; auto. split.
  - pose proof (dec_nonempty i). destruct (dec i) eqn:E; [congruence|]. rewrite <- E, undec_dec.
    destruct (N.ltb_spec i (2 ^ 64)); [reflexivity|lia].
  - split; [apply dec_nonempty|]. intro C. pose proof (dec_digits i) as D. rewrite Forall_forall in D. apply D in C. discriminate.
Qed.
Print Assumptions c51_index_round_trip.
(* isIndex says yes but index throws on a number that does not fit *)
Theorem c51_isIndex_but_throws_refuted : exists p, isIndex p 0 = Ok true /\ index p 0 = Throw /\ path_of (to_string p dot) dot = Ok p.
Proof. exists [dec (2 ^ 64)]. split; [reflexivity|]. split; reflexivity. Qed.
Print Assumptions c51_isIndex_but_throws_refuted.
(* for components that come from a text, index answers exactly for the digit strings that fit *)
Theorem c51_index_total : forall s sep p i x, path_of s sep = Ok p -> nth_error p i = Some x ->
  (isIndex p i = Ok true <-> Forall (fun c => is_digit c = true) x) /\
  (isIndex p i = Ok true -> (undec x < 2 ^ 64)%N -> index p i = Ok (undec x)).
Proof.
  intros s sep p i x E Ex. unfold isIndex, index. rewrite Ex.
  destruct (c44_parse_then_print _ _ _ E) as (F & _). rewrite Forall_forall in F.
  destruct (F x (nth_error_In _ _ Ex)) as (Nx & _). split.
  - split.
    + intro Q. injection Q as Q. rewrite forallb_forall in Q. now apply Forall_forall.
    + intro Q. f_equal. apply forallb_forall. now apply Forall_forall.
  - intros Q L. injection Q as Q. rewrite Q. destruct x; [congruence|]. destruct (N.ltb_spec (undec (b :: x)) (2 ^ 64)); [reflexivity|lia].
Qed.
Print Assumptions c51_index_total.
(* what is left: a component that is not there, a number that does not fit, no digit at all,
   and anything else, where the error message itself is undefined (a size_t for a %s) *)
Theorem c51_index_failures : forall p i,
  (nth_error p i = None -> isIndex p i = UB /\ index p i = UB) /\
  (forall x, nth_error p i = Some x ->
    (x = [] -> isIndex p i = Ok true /\ index p i = Throw) /\
    (Forall SpecJson.digit_char x -> (2 ^ 64 <= SpecJson.dec_val x 0)%N -> isIndex p i = Ok true /\ index p i = Throw) /\
    (~ Forall SpecJson.digit_char x -> isIndex p i = Ok false /\ index p i = UB)).
Proof.
  assert (D : forall c, is_digit c = true <-> SpecJson.digit_char c).
  { intro c. unfold is_digit, SpecJson.digit_char. rewrite andb_true_iff, !N.leb_le. tauto. }
  assert (U : forall x a, undec_from a x = SpecJson.dec_val x a).
  { induction x as [|c x IH]; intro a; [reflexivity|]. cbn [SpecJson.dec_val]. rewrite <- IH. unfold undec_from. cbn [fold_left]. f_equal. lia. }
  intros p i. split; [intro E; unfold isIndex, index; now rewrite E|]. intros x E. unfold isIndex, index. rewrite E. repeat split.
  - subst x. reflexivity.
  - subst x. reflexivity.
  - f_equal. apply forallb_forall. intros c Hc. apply D. rewrite Forall_forall in H. auto.
  - replace (forallb is_digit x) with true; [|symmetry; apply forallb_forall; intros c Hc; apply D; rewrite Forall_forall in H; auto].
    destruct x as [|c x]; [reflexivity|]. unfold undec. rewrite U. destruct (N.ltb_spec (SpecJson.dec_val (c :: x) 0) (2 ^ 64)); [lia|reflexivity].
  - f_equal. apply not_true_is_false. rewrite forallb_forall. intro Q. apply H, Forall_forall. intros c Hc. apply D. auto.
  - replace (forallb is_digit x) with false; [reflexivity|]. symmetry.
    apply not_true_is_false. rewrite forallb_forall. intro Q. apply H, Forall_forall. intros c Hc. apply D. auto.
Qed.
Print Assumptions c51_index_failures.
Example c51_failures_ex : isIndex [lit "7"; lit "x7"] 1 = Ok false /\ index [lit "7"; lit "x7"] 0 = Ok 7%N /\
  ~ Forall SpecJson.digit_char (lit "x7").
Proof.
  split; [reflexivity|]. split; [reflexivity|]. intro H. apply Forall_inv in H. unfold SpecJson.digit_char in H. cbn in H. lia.
Qed.

(* ===== C45 ===== *)
Lemma path_ltb_irrefl a : path_ltb a a = false.
Proof. induction a as [|x a IH]; cbn; auto. now rewrite str_eqb_refl. Qed.
Lemma path_ltb_trans a : forall b c, path_ltb a b = true -> path_ltb b c = true -> path_ltb a c = true.
Proof.
  induction a as [|x a IH]; intros [|y b] [|z c]; cbn; try discriminate; auto.
  intros H1 H2. destruct (str_eqb_spec x y) as [->|N1].
  - destruct (str_eqb_spec y z) as [->|N2]; eauto.
  - destruct (str_eqb_spec y z) as [->|N2].
    + destruct (str_eqb_spec x z); [contradiction|auto].
    + pose proof (str_ltb_trans _ _ _ H1 H2) as H. destruct (str_eqb_spec x z) as [->|]; auto.
      rewrite str_ltb_irrefl in H. discriminate.
Qed.
Lemma path_ltb_total a : forall b, a = b \/ path_ltb a b = true \/ path_ltb b a = true.
Proof.
  induction a as [|x a IH]; intros [|y b]; cbn; auto. destruct (str_eqb_spec x y) as [->|Ne].
  - rewrite str_eqb_refl. destruct (IH b) as [->|[H|H]]; auto.
  - destruct (str_eqb_spec y x); [congruence|]. destruct (str_ltb_total x y) as [->|[H|H]]; auto.
Qed.
Theorem c45_strict_total_order :
  (forall a, path_ltb a a = false) /\
  (forall a b c, path_ltb a b = true -> path_ltb b c = true -> path_ltb a c = true) /\
  (forall a b, path_ltb a b = false -> path_ltb b a = false -> a = b).
Proof.
  split; [apply path_ltb_irrefl|]. split; [exact path_ltb_trans|].
  intros a b H1 H2. destruct (path_ltb_total a b) as [E|[E|E]]; [exact E|congruence|congruence].
Qed.
Print Assumptions c45_strict_total_order.

Theorem c45_lexicographic : forall a b, path_ltb a b = true <->
  (exists x r, b = a ++ x :: r) \/ (exists p x y r s, a = p ++ x :: r /\ b = p ++ y :: s /\ x <> y /\ str_ltb x y = true).
Proof.
  induction a as [|x a IH]; intros [|y b]; cbn [path_ltb].
  - split; [discriminate|]. intros [(x & r & E)|(p & x & y & r & s & E & _)]; [discriminate|destruct p; discriminate].
  - split; auto. intros _. left. exists y, b. reflexivity.
  - split; [discriminate|]. intros [(z & r & E)|(p & z & y & r & s & _ & E & _)]; [discriminate|destruct p; discriminate].
  - destruct (str_eqb_spec x y) as [->|Ne].
    + rewrite IH. split; intros [(z & r & E)|(p & z & w & r & s & E1 & E2 & Q)].
      * left. exists z, r. now rewrite E.
      * right. exists (y :: p), z, w, r, s. rewrite E1, E2. auto.
      * left. exists z, r. now injection E.
      * right. destruct p as [|h p]; cbn in E1, E2.
        -- injection E1 as -> _. injection E2 as -> _. tauto.
        -- injection E1 as _ ->. injection E2 as _ ->. exists p, z, w, r, s. auto.
    + split.
      * intro H. right. exists [], x, y, a, b. auto.
      * intros [(z & r & E)|(p & z & w & r & s & E1 & E2 & N2 & H)].
        -- injection E as -> _. congruence.
        -- destruct p as [|h p]; cbn in E1, E2.
           ++ injection E1 as -> _. injection E2 as -> _. auto.
           ++ injection E1 as -> _. injection E2 as -> _. congruence.
Qed.
Print Assumptions c45_lexicographic.
(* ... on components compared as unsigned byte strings, a proper prefix first *)
Theorem c45_components : forall a b : str, str_ltb a b = true <->
  (exists x r, b = a ++ x :: r) \/ (exists p x y r s, a = p ++ x :: r /\ b = p ++ y :: s /\ (x < y)%N).
Proof.
  induction a as [|x a IH]; intros [|y b]; cbn [str_ltb].
  - split; [discriminate|]. intros [(x & r & E)|(p & x & y & r & s & E & _)]; [discriminate|destruct p; discriminate].
  - split; auto. intros _. left. exists y, b. reflexivity.
  - split; [discriminate|]. intros [(z & r & E)|(p & z & y & r & s & _ & E & _)]; [discriminate|destruct p; discriminate].
  - destruct (N.ltb_spec x y).
    + split; auto. intros _. right. exists [], x, y, a, b. auto.
    + destruct (N.eqb_spec x y) as [->|Ne].
      * rewrite IH. split; intros [(z & r & E)|(p & z & w & r & s & E1 & E2 & Q)].
        -- left. exists z, r. now rewrite E.
        -- right. exists (y :: p), z, w, r, s. rewrite E1, E2. auto.
        -- left. exists z, r. now injection E.
        -- right. destruct p as [|h p]; cbn in E1, E2.
           ++ injection E1 as -> _. injection E2 as -> _. lia.
           ++ injection E1 as _ ->. injection E2 as _ ->. exists p, z, w, r, s. auto.
      * split; [discriminate|]. intros [(z & r & E)|(p & z & w & r & s & E1 & E2 & Q)].
        -- injection E as -> _. congruence.
        -- destruct p as [|h p]; cbn in E1, E2.
           ++ injection E1 as -> _. injection E2 as -> _. lia.
           ++ injection E1 as -> _. injection E2 as -> _. congruence.
Qed.
Print Assumptions c45_components.
Example c45_ex : path_ltb [lit "a"; lit "b"] [lit "a"; lit "b"; lit "c"] = true /\ path_ltb [lit "a"; lit "z"] [lit "ab"] = true /\
  path_ltb [lit "b"] [lit "a"; lit "z"] = false.
Proof. repeat split. Qed.
