(* PropPath.v - C91: paths into values. *)
From Coq Require String. Import String.StringSyntax.
From Verif Require Import Base Dec ModelJson ModelJsonW ModelJsonT ModelConfig ModelConfigStore SpecConfigStore ModelPath SpecPath ProofPath PropConfigStore.
Local Open Scope outcome_scope.

Definition cmax0 : N := 1000.

(* has: is there such a part? *)
Theorem c91_has_finds : forall (e : env) (p : path) (t : nat) (v : val), unique_names e ->
  vhas e p false t v = Ok true <-> exists u w, part e t v p u w.
Proof. intros e p t v U. split; [now apply has_true|]. intros (u & w & H). eapply part_has; eauto. Qed.
Print Assumptions c91_has_finds.
Theorem c91_has_answers : forall (e : env) (p : path) (t : nat) (v : val), whole e t v -> sane p ->
  exists b, vhas e p false t v = Ok b.
Proof. intros. now apply has_total. Qed.
Print Assumptions c91_has_answers.
Theorem c91_has_const : forall (e : env) (p : path) (t : nat) (v : val), unique_names e ->
  vhas e p true t v = Ok true -> exists u w, part e t v p u w.
Proof. intros e p t v U. now apply has_true. Qed.
Print Assumptions c91_has_const.

(* get: what it gives is the part of the object as it is afterwards, and asking again gives
   the same and changes nothing *)
Theorem c91_get_gives_the_part : forall (max : N) (e : env) (p : path) (t : nat) (v : val) (g : got),
  (max < 2 ^ 64)%N -> unique_names e -> vget max e p false t v = Ok g ->
  g_const g = false /\ part e t (g_whole g) p (g_type g) (g_val g) /\
  vhas e p false t (g_whole g) = Ok true /\ vget max e p false t (g_whole g) = Ok g.
Proof.
  intros max e p t v g Hm U H. destruct (get_trim _ _ _ Hm U _ _ _ H) as (C & T). pose proof (trim_part _ _ _ _ _ _ _ T) as P.
  split; [exact C|]. split; [exact P|]. split; [eapply part_has; eauto|]. rewrite (trim_get _ _ _ _ _ _ _ Hm T). destruct g. cbn in *. congruence.
Qed.
Print Assumptions c91_get_gives_the_part.

(* a part that is there is found *)
Theorem c91_get_finds : forall (max : N) (e : env) (p : path) (t : nat) (v : val) (u : nat) (w : val),
  (max < 2 ^ 64)%N -> lists_within max v -> part e t v p u w ->
  exists v', vget max e p false t v = Ok (Got false u w v').
Proof. intros. eapply part_get; eauto. Qed.
Print Assumptions c91_get_finds.

(* and the parts elsewhere stay *)
Theorem c91_get_elsewhere : forall (max : N) (e : env) (p q : path) (t : nat) (v : val) (g : got) (u : nat) (w : val),
  (max < 2 ^ 64)%N -> unique_names e -> vget max e p false t v = Ok g ->
  apart e t v p q -> part e t v q u w -> part e t (g_whole g) q u w.
Proof. intros. eapply get_keeps; eauto. Qed.
Print Assumptions c91_get_elsewhere.

(* set: it works when get does and the type is right *)
Theorem c91_set_when : forall (max : N) (e : env) (p : path) (ta : nat) (x : val) (t : nat) (v : val) (g : got),
  (max < 2 ^ 64)%N -> unique_names e -> p <> [] -> vget max e p false t v = Ok g ->
  (g_type g = ta -> exists v', vset max e p ta x false t v = Ok v') /\
  (g_type g <> ta -> vset max e p ta x false t v = Abort).
Proof.
  intros max e p ta x t v g Hm U Np H. rewrite set_is_get by auto. rewrite H. cbn [bind]. split; intro E.
  - apply Nat.eqb_eq in E as ->. eauto.
  - apply Nat.eqb_neq in E as ->. reflexivity.
Qed.
Print Assumptions c91_set_when.

Lemma set_inv max e p ta x t v v' : (max < 2 ^ 64)%N -> unique_names e -> p <> [] -> vset max e p ta x false t v = Ok v' ->
  exists g, vget max e p false t v = Ok g /\ trim max e t (g_whole g) p ta (g_val g) /\ v' = replace_part e p x t (g_whole g).
Proof.
  intros Hm U Np H. rewrite set_is_get in H by auto. destruct (vget max e p false t v) as [g| | | |] eqn:Eg; try discriminate. cbn [bind] in H.
  destruct (Nat.eqb (g_type g) ta) eqn:E; [|discriminate]. apply Nat.eqb_eq in E. injection H as <-.
  destruct (get_trim _ _ _ Hm U _ _ _ Eg) as (_ & T). rewrite E in T. eauto.
Qed.

(* what was set is there: has says so and get gives it *)
Theorem c91_set : forall (max : N) (e : env) (p : path) (ta : nat) (x : val) (t : nat) (v v' : val),
  (max < 2 ^ 64)%N -> unique_names e -> vset max e p ta x false t v = Ok v' ->
  part e t v' p ta x /\ vhas e p false t v' = Ok true /\ vget max e p false t v' = Ok (Got false ta x v').
Proof.
  intros max e p ta x t v v' Hm U H. assert (Np : p <> []) by (intros ->; discriminate).
  destruct (set_inv _ _ _ _ _ _ _ _ Hm U Np H) as (g & _ & T & ->).
  pose proof (trim_replace _ _ _ _ _ _ _ x T) as T'. pose proof (trim_part _ _ _ _ _ _ _ T') as P.
  split; [exact P|]. split; [eapply part_has; eauto|]. now apply trim_get.
Qed.
Print Assumptions c91_set.

Theorem c91_set_elsewhere : forall (max : N) (e : env) (p q : path) (ta : nat) (x : val) (t : nat) (v v' : val) (u : nat) (w : val),
  (max < 2 ^ 64)%N -> unique_names e -> vset max e p ta x false t v = Ok v' ->
  apart e t v p q -> part e t v q u w -> part e t v' q u w.
Proof.
  intros max e p q ta x t v v' u w Hm U H A P. assert (Np : p <> []) by (intros ->; discriminate).
  destruct (set_inv _ _ _ _ _ _ _ _ Hm U Np H) as (g & G & T & ->).
  destruct (get_keeps _ _ _ _ _ _ Hm U A _ _ _ G P) as (P' & A'). eapply replace_keeps; eauto. eapply trim_part; eauto.
Qed.
Print Assumptions c91_set_elsewhere.

(* A list is cut after the index, or made longer up to it. *)
Theorem c91_lists_end_at_the_index : forall (max : N) (e : env) (r : path) (k : str) (n : N) (t i tl : nat) (v : val) (l : list val),
  (max < 2 ^ 64)%N -> unique_names e -> lists_within max v ->
  part e t v r tl (VList l) -> nth_error e tl = Some (DList i) -> number k n -> (n < max)%N ->
  (exists x v', vget max e (r ++ [k]) false t v = Ok (Got false i x v') /\
    part e t v' r tl (VList (firstn (N.to_nat n) l ++ repeat (dval e i) (N.to_nat n - length l) ++ [x]))) /\
  (forall x, exists v', vset max e (r ++ [k]) i x false t v = Ok v' /\
    part e t v' r tl (VList (firstn (N.to_nat n) l ++ repeat (dval e i) (N.to_nat n - length l) ++ [x]))).
Proof.
  intros max e r k n t i tl v l Hm U W P Et Nk Ln. destruct (part_get _ _ _ _ _ _ _ Hm P W) as (v1 & G).
  destruct (get_trim _ _ _ Hm U _ _ _ G) as (_ & T). cbn [g_whole g_type g_val] in T.
  assert (Hn : (n < 2 ^ 64)%N) by lia. set (l' := resize_list e i l (S (N.to_nat n))).
  assert (Ll : length l' = S (N.to_nat n)) by apply resize_length.
  destruct (nth_error l' (N.to_nat n)) as [y|] eqn:Ey; [|apply nth_error_None in Ey; lia].
  assert (Gr : grow max e i l n = Ok (l', y)) by (apply grow_spec; auto).
  assert (G1 : vget max e [k] false tl (VList l) = Ok (Got false i y (VList l'))).
  { rewrite vget_eq, Et, (proj2 (index_number _ _) Nk). cbn [bind]. rewrite Gr. cbn [bind vget in_whole g_const g_type g_val g_whole]. now rewrite put_same. }
  pose proof (get_app max e r [k] Hm U t v) as Ga. rewrite G in Ga. cbn [bind g_type g_val g_whole] in Ga. rewrite G1 in Ga. cbn [bind g_type g_val g_whole in_whole g_const] in Ga.
  pose proof (trim_replace _ _ _ _ _ _ _ (VList l') T) as T'.
  assert (Ex : forall z, VList (firstn (N.to_nat n) l ++ repeat (dval e i) (N.to_nat n - length l) ++ [z]) = VList (put_at l' (N.to_nat n) z)) by (intro z; unfold l'; now rewrite put_resize).
  split.
  - exists y. eexists. split; [exact Ga|]. rewrite Ex, (put_same _ _ _ Ey). eapply trim_part; eauto.
  - intro x. rewrite set_is_get by (auto; destruct r; discriminate). rewrite Ga. cbn [bind g_type g_val g_whole]. rewrite Nat.eqb_refl. eexists. split; [reflexivity|].
    rewrite (replace_app _ _ _ _ _ _ _ _ (trim_part _ _ _ _ _ _ _ T')), (replace_replace _ _ _ _ _ _ _ _ _ T), Ex.
    rewrite replace_eq, Et, (number_undec _ _ Nk), Ey. cbn [replace_part]. eapply trim_part, trim_replace; eauto.
Qed.
Print Assumptions c91_lists_end_at_the_index.

(* What get makes is false, zero, empty or a null pointer. *)
Theorem c91_fresh : forall (max : N) (e : env) (t i : nat) (m : list (str * val)) (k : str),
  nth_error e t = Some (DMap i) -> afind k m = None ->
  exists w v', vget max e [k] false t (VMap m) = Ok (Got false i w v') /\
    match nth_error e i with
    | Some DBool => w = VBool false
    | Some (DInt _) => w = VInt 0
    | Some (DFloat _) => w = VFloat (lit "0")
    | Some DStr => w = VStr []
    | Some (DPtr _ _) => w = VPtr None
    | Some (DList _) => w = VList []
    | Some (DMap _) => w = VMap []
    | Some (DObj _ init) => w = VObj init
    | _ => True
    end.
Proof.
  intros max e t i m k Et Ek. do 2 eexists. split.
  - rewrite vget_eq, Et. cbn [vget]. rewrite Ek. reflexivity.
  - unfold dval. destruct (nth_error e i) as [[]|]; trivial.
Qed.
Print Assumptions c91_fresh.
Example c91_fresh_ex : vget 9 [DMap 1; DBool] [lit "k"] false 0 (VMap []) = Ok (Got false 1 (VBool false) (VMap [(lit "k", VBool false)])).
Proof. vm_compute. reflexivity. Qed.


(* Through a const Value: if what get gives is const, nothing has changed. *)
Theorem c91_const_get : forall (max : N) (e : env) (p : path) (t : nat) (v : val) (g : got), unique_names e ->
  vget max e p true t v = Ok g -> g_const g = true -> g_whole g = v /\ part e t v p (g_type g) (g_val g).
Proof. intros max e p t v g U H C. eapply get_const; eauto. Qed.
Print Assumptions c91_const_get.

Theorem c91_const_stays : forall (max : N) (e : env) (p : path) (t : nat) (v : val), unique_names e ->
  (forall t i, nth_error e t <> Some (DPtr true i)) ->          (* no smart pointers *)
  (forall g, vget max e p true t v = Ok g -> g_const g = true /\ g_whole g = v /\ part e t v p (g_type g) (g_val g)) /\
  (forall ta x v', vset max e p ta x true t v <> Ok v').
Proof.
  intros max e p t v U NS. split.
  - intros g H. pose proof (get_stays_const _ _ _ NS _ _ _ H) as C. split; [exact C|]. eapply c91_const_get; eauto.
  - intros ta x v'. unfold vset. destruct (popBack p) as [q| | | |]; try discriminate. cbn [bind].
    destruct (vget max e q true t v) as [g| | | |] eqn:G; try discriminate. cbn [bind]. rewrite (get_stays_const _ _ _ NS _ _ _ G).
    destruct (vset1 max e (last p []) ta x true (g_type g) (g_val g)) as [w| | | |] eqn:S1; try discriminate. exfalso. eapply set1_const; eauto.
Qed.
Print Assumptions c91_const_stays.
Example c91_const_stays_ex : let e := [DInt true; DObj [mkF (lit "a") 0 false [] false; mkF (lit "p") 2 false [] false] []; DPtr false 1] in
  let v := VObj [(lit "a", VInt 1); (lit "p", VPtr (Some (VObj [(lit "a", VInt 2); (lit "p", VPtr None)])))] in
  (forall t i, nth_error e t <> Some (DPtr true i)) /\ vget cmax0 e [lit "p"; lit "a"] true 1 v = Ok (Got true 0 (VInt 2) v) /\
  vset cmax0 e [lit "p"; lit "a"] 0 (VInt 3) true 1 v = Abort /\ (exists v', vset cmax0 e [lit "p"; lit "a"] 0 (VInt 3) false 1 v = Ok v').
Proof.
  cbv zeta. split; [|split; [vm_compute; reflexivity|split; [vm_compute; reflexivity|eexists; vm_compute; reflexivity]]].
  intros [|[|[|t]]] i; try discriminate. destruct t; discriminate.
Qed.

(* A component that is not a field is not there, and reported by get and set. *)
Theorem c91_no_such_field : forall (max : N) (e : env) (r p : path) (k : str) (t u : nat) (v w : val) (fs : list field) (ini : list (str * val)) (ta : nat) (x : val),
  (max < 2 ^ 64)%N -> unique_names e -> lists_within max v ->
  part e t v r u w -> nth_error e u = Some (DObj fs ini) -> ~ In k (map f_key fs) ->
  vhas e (r ++ k :: p) false t v <> Ok true /\ vget max e (r ++ k :: p) false t v = Abort /\ vset max e (r ++ k :: p) ta x false t v = Abort.
Proof.
  intros max e r p k t u v w fs ini ta x Hm U W P Eu Nk.
  assert (Nf : field_named fs k = None).
  { destruct (field_named fs k) as [f|] eqn:E; auto. apply (field_named_spec _ _ _ (U _ _ _ Eu)) in E as (A & <-). exfalso. apply Nk. now apply in_map. }
  assert (Ga : vget max e (r ++ k :: p) false t v = Abort).
  { rewrite get_app by auto. destruct (part_get _ _ _ _ _ _ _ Hm P W) as (v1 & ->). cbn [bind g_type g_val]. now rewrite vget_eq, Eu, Nf. }
  split; [|split; [exact Ga|]].
  - intro H. apply has_true in H as (u' & w' & H); auto. destruct (part_get _ _ _ _ _ _ _ Hm H W) as (v1 & E). congruence.
  - rewrite set_is_get by (auto; destruct r; discriminate). now rewrite Ga.
Qed.
Print Assumptions c91_no_such_field.

(* ---- examples and what goes wrong ---- *)
(* 0: long; 1: vector of longs; 2: map of vectors; 3: a class with a map, a unique_ptr to a
   vector and a raw pointer to one; 4: unique_ptr<vector>; 5: vector*; 6: vector of classes *)
Definition ce : env := [DInt true; DList 0; DMap 1;
  DObj [mkF (lit "m") 2 false [] false; mkF (lit "s") 4 false [] false; mkF (lit "r") 5 false [] false] [(lit "m", VMap []); (lit "s", VPtr None); (lit "r", VPtr None)];
  DPtr true 1; DPtr false 1; DList 3].
Definition nums (l : list Z) : val := VList (map VInt l).
Definition obj1 : val := VObj [(lit "m", VMap [(lit "a", nums [1; 2; 3]%Z)]); (lit "s", VPtr (Some (nums [4; 5; 6]%Z))); (lit "r", VPtr (Some (nums [7; 8]%Z)))].
Definition cmax : N := 1000.

Lemma ce_names : unique_names ce.
Proof.
  intros t fs ini H. destruct t as [|[|[|[|[|[|[|t]]]]]]]; try discriminate; [|destruct t; discriminate]. injection H as <- _.
  repeat (constructor; [cbn; intuition discriminate|]). constructor.
Qed.
Example c91_ex : whole ce 3 obj1 /\ lists_within cmax obj1 /\ sane [lit "m"; lit "a"; lit "01"] /\
  part ce 3 obj1 [lit "m"; lit "a"; lit "01"] 0 (VInt 2) /\ part ce 3 obj1 [lit "s"; lit "2"] 0 (VInt 6) /\
  apart ce 3 obj1 [lit "m"; lit "a"; lit "01"] [lit "m"; lit "a"; lit "0"] /\
  exists v', vset cmax ce [lit "m"; lit "b"; lit "2"] 0 (VInt 9) false 3 obj1 = Ok v' /\
    part ce 3 v' [lit "m"; lit "b"] 1 (nums [0; 0; 9]%Z) /\ part ce 3 v' [lit "s"; lit "2"] 0 (VInt 6).
Proof.
  assert (Fi : forall f, In f [mkF (lit "m") 2 false [] false; mkF (lit "s") 4 false [] false; mkF (lit "r") 5 false [] false] ->
     field_is [mkF (lit "m") 2 false [] false; mkF (lit "s") 4 false [] false; mkF (lit "r") 5 false [] false] (f_key f) (f_type f)).
  { intros f H. split; [exact (ce_names 3 _ _ eq_refl)|]. exists f. auto. }
  assert (Nm : forall k, k <> [] -> forallb is_digit k = true -> (undec k < 2 ^ 64)%N -> number k (undec k)) by (intros k A B C; split; [exact A|]; split; [now apply digits_all|]; auto).
  assert (Ln : forall l, whole ce 1 (nums l)).
  { intro l. eapply whole_list; [reflexivity|]. intros x Hx. eapply whole_plain; [reflexivity|exact I]. }
  split; [|split; [|split; [|split; [|split; [|split]]]]].
  - eapply whole_obj; [reflexivity|exact (ce_names 3 _ _ eq_refl)|]. intros f [<-|[<-|[<-|[]]]]; eexists; (split; [reflexivity|]); cbn [f_type].
    + eapply whole_map; [reflexivity|]. intros k x [H|[]]. injection H as _ <-. apply Ln.
    + eapply whole_ptr; [reflexivity|]. apply Ln.
    + eapply whole_ptr; [reflexivity|]. apply Ln.
  - vm_compute. intuition discriminate.
  - intros k [<-|[<-|[<-|[]]]] D; [exfalso; vm_compute in D; inversion D; discriminate|exfalso; vm_compute in D; inversion D; discriminate|].
    eexists. apply Nm; [discriminate|reflexivity|reflexivity].
  - eapply part_field; [reflexivity|apply (Fi (mkF (lit "m") 2 false [] false)); cbn; auto|reflexivity|]. eapply part_value; [reflexivity|reflexivity|].
    eapply part_element; [reflexivity|apply (Nm (lit "01")); [discriminate|reflexivity|reflexivity]|reflexivity|]. constructor.
  - eapply part_field; [reflexivity|apply (Fi (mkF (lit "s") 4 false [] false)); cbn; auto|reflexivity|]. eapply part_pointee; [reflexivity|discriminate|].
    eapply part_element; [reflexivity|apply (Nm (lit "2")); [discriminate|reflexivity|reflexivity]|reflexivity|]. constructor.
  - eapply apart_in_field; [reflexivity|apply (Fi (mkF (lit "m") 2 false [] false)); cbn; auto|reflexivity|]. eapply apart_in_value; [reflexivity|reflexivity|].
    eapply apart_before; [reflexivity|apply (Nm (lit "01")); [discriminate|reflexivity|reflexivity]|apply (Nm (lit "0")); [discriminate|reflexivity|reflexivity]|reflexivity].
  - eexists. split; [vm_compute; reflexivity|]. split.
    + eapply part_field; [reflexivity|apply (Fi (mkF (lit "m") 2 false [] false)); cbn; auto|reflexivity|]. eapply part_value; [reflexivity|reflexivity|]. constructor.
    + eapply part_field; [reflexivity|apply (Fi (mkF (lit "s") 4 false [] false)); cbn; auto|reflexivity|]. eapply part_pointee; [reflexivity|discriminate|].
      eapply part_element; [reflexivity|apply (Nm (lit "2")); [discriminate|reflexivity|reflexivity]|reflexivity|]. constructor.
Qed.

(* Reading an element deletes those after it; reading a missing key or element makes it. *)
Theorem c91_get_changes_refuted :
  vget cmax ce [lit "0"] false 1 (nums [1; 2; 3]%Z) = Ok (Got false 0 (VInt 1) (nums [1]%Z)) /\
  vget cmax ce [lit "2"] false 1 (nums [1]%Z) = Ok (Got false 0 (VInt 0) (nums [1; 0; 0]%Z)) /\
  vget cmax ce [lit "b"] false 2 (VMap [(lit "a", nums [1]%Z)]) = Ok (Got false 1 (nums []) (VMap [(lit "a", nums [1]%Z); (lit "b", nums [])])) /\
  vhas ce [lit "b"] false 2 (VMap [(lit "a", nums [1]%Z)]) = Ok false.
Proof. repeat split; vm_compute; reflexivity. Qed.
Print Assumptions c91_get_changes_refuted.

(* Assigning to an element deletes those after it. *)
Theorem c91_set_cuts_refuted :
  vset cmax ce [lit "2"] 0 (VInt 9) false 1 (nums [1; 2; 3; 4]%Z) = Ok (nums [1; 2; 9]%Z) /\
  vset cmax ce [lit "0"] 0 (VInt 8) false 1 (nums [1; 2; 9]%Z) = Ok (nums [8]%Z).
Proof. split; vm_compute; reflexivity. Qed.
Print Assumptions c91_set_cuts_refuted.

(* A const Value: a smart pointer on the way is enough to change the object; elements and
   values that are there make has and get fail. *)
Theorem c91_const_refuted :
  (exists v', vget cmax ce [lit "s"; lit "0"] true 3 obj1 = Ok (Got false 0 (VInt 4) v') /\ v' <> obj1) /\
  (exists v', vset cmax ce [lit "s"; lit "0"] 0 (VInt 9) true 3 obj1 = Ok v') /\
  vhas ce [lit "r"; lit "0"] true 3 obj1 = Abort /\ vget cmax ce [lit "r"; lit "0"] true 3 obj1 = Abort /\
  vhas ce [lit "m"; lit "a"] true 3 obj1 = Abort /\ vhas ce [lit "m"; lit "b"] true 3 obj1 = Ok false.
Proof.
  split; [eexists; split; [vm_compute; reflexivity|vm_compute; discriminate]|]. split; [eexists; vm_compute; reflexivity|]. repeat split; vm_compute; reflexivity.
Qed.
Print Assumptions c91_const_refuted.

(* Null pointers on the way are followed, components of lists that are not numbers are
   undefined for get, empty or huge ones an uncaught exception even for has. *)
Theorem c91_undefined_refuted :
  vhas ce [lit "0"] false 4 (VPtr None) = UB /\ vget cmax ce [lit "0"] false 4 (VPtr None) = UB /\
  vhas ce [lit "x"] false 1 (nums [1]%Z) = Ok false /\ vget cmax ce [lit "x"] false 1 (nums [1]%Z) = UB /\
  vhas ce [[]] false 1 (nums [1]%Z) = Throw /\ vhas ce [lit "99999999999999999999"] false 1 (nums [1]%Z) = Throw /\
  vget cmax ce [lit "18446744073709551615"] false 1 (nums [1]%Z) = UB.
Proof. repeat split; vm_compute; reflexivity. Qed.
Print Assumptions c91_undefined_refuted.

(* ---- a configuration whose values are reached through paths ---- *)
Lemma put_root_same m r t v w : nth_error m r = Some (t, v) -> nth_error (put_root m r w) r = Some (t, w).
Proof. revert r. induction m as [|[t0 v0] m IH]; intros [|r] H; cbn in *; try discriminate; [congruence|auto]. Qed.
Lemma put_root_other m r r' w : r' <> r -> nth_error (put_root m r w) r' = nth_error m r'.
Proof. revert r r'. induction m as [|[t0 v0] m IH]; intros [|r] [|r'] H; cbn; auto; contradiction || (apply IH; congruence). Qed.
Lemma put_root_put m r v w : put_root (put_root m r v) r w = put_root m r w.
Proof. revert r. induction m as [|[t0 v0] m IH]; intros [|r]; cbn; f_equal; auto. Qed.
Lemma put_root_id m r t v : nth_error m r = Some (t, v) -> put_root m r v = m.
Proof. revert r. induction m as [|[t0 v0] m IH]; intros [|r] H; cbn in *; try discriminate; [injection H as -> ->; reflexivity|f_equal; auto]. Qed.

(* A name that stands for (part of) an object: setting a part of it, through this or any
   other name for it, is setting that part of the object; read back through any of the names
   it has the value, and reading it changes nothing.  The other objects stay, and so do the
   parts of this one elsewhere. *)
Theorem c91_config_part : forall (max : N) (e : env) (m : roots) (h : list (cstep view)) (fuel : nat) (k : str) (r : nat) (q rest : path) (comp : str)
    (a : view) (ta t u : nat) (x v w w' : val),
  (max < 2 ^ 64)%N -> unique_names e -> NoDup (map defines h) -> (length h <= fuel)%nat ->
  resolves h k (r, q) -> nth_error m r = Some (t, v) -> part e t v q u w ->
  contents e m a = Some (ta, x) -> fst a <> r ->
  vset max e (rest ++ [comp]) ta x false u w = Ok w' ->
  exists c c' v', do_steps (path_layer max e) fuel (cempty m) h = Ok c /\
    cset (path_layer max e) (S fuel) c (k :: rest ++ [comp]) a = Ok c' /\
    nth_error (cmem c') r = Some (t, v') /\ part e t v' q u w' /\
    (forall r', r' <> r -> nth_error (cmem c') r' = nth_error m r') /\
    (forall q2 u2 w2, apart e t v q q2 -> part e t v q2 u2 w2 -> part e t v' q2 u2 w2) /\
    forall k', resolves h k' (r, q) ->
      ccount (path_layer max e) c' (k' :: rest ++ [comp]) = Ok true /\
      cindex (path_layer max e) c' (k' :: rest ++ [comp]) = Ok ((r, q ++ rest ++ [comp]), c') /\
      contents e (cmem c') (r, q ++ rest ++ [comp]) = Some (ta, x).
Proof.
  intros max e m h fuel k r q rest comp a ta t u x v w w' Hm U ND Lf R Er Pq Ea Na Sv.
  assert (Pb : popBack (rest ++ [comp]) = Ok rest) by (unfold popBack; destruct (rest ++ [comp]) eqn:Eq; [destruct rest; discriminate|]; rewrite <- Eq, removelast_last; reflexivity).
  pose proof Sv as Sv0. unfold vset in Sv. rewrite Pb, last_last in Sv. cbn [bind] in Sv.
  destruct (vget max e rest false u w) as [g| | | |] eqn:G; try discriminate. cbn [bind] in Sv.
  destruct (get_trim _ _ _ Hm U _ _ _ G) as (Cg & Tg). rewrite Cg in Sv.
  destruct (vset1 max e comp ta x false (g_type g) (g_val g)) as [w1| | | |] eqn:S1; try discriminate. cbn [bind] in Sv. injection Sv as Sv.
  set (v1 := replace_part e q (g_whole g) t v). set (v' := replace_part e q w' t v).
  pose proof (part_replace _ _ _ _ _ _ (g_whole g) Pq) as P1. fold v1 in P1. pose proof (part_replace _ _ _ _ _ _ w' Pq) as P'. fold v' in P'.
  destruct (c89_set_part view roots (path_layer max e) m (put_root m r v1) (put_root m r v') h fuel k comp rest (r, q) (r, q ++ rest) a) as (c & c' & E1 & E2 & Em & Rs); auto.
  - cbn [lget path_layer]. unfold contents. cbn [fst snd]. rewrite Er, (part_part_at _ _ _ _ _ _ Pq), G. reflexivity.
  - cbn [lput path_layer]. unfold contents. cbn [fst snd]. rewrite (put_root_same _ _ _ _ _ Er), (put_root_other _ _ _ _ Na).
    rewrite (part_part_at _ _ _ _ _ _ (part_app _ _ _ _ _ _ _ _ _ P1 (trim_part _ _ _ _ _ _ _ Tg))). unfold contents in Ea. rewrite Ea, S1. cbn [bind]. rewrite put_root_put.
    rewrite (replace_app _ _ _ _ _ _ _ _ P1). unfold v1. rewrite (part_replace_replace _ _ _ _ _ _ _ _ Pq), Sv. reflexivity.
  - exists c, c', v'. pose proof (put_root_same _ _ _ _ v' Er) as Er'. rewrite Em.
    split; [exact E1|]. split; [exact E2|]. split; [exact Er'|]. split; [exact P'|]. split; [intros r' Nr; now apply put_root_other|]. split.
    { intros q2 u2 w2 A P2. unfold v'. eapply replace_keeps; eauto. }
    intros k' R'.
    apply Rs in R'. cbn [cindex] in R'. destruct (afind k' (ckeys c')) as [z|] eqn:Ek; [|discriminate]. injection R' as ->.
    destruct (c91_set _ _ _ _ _ _ _ _ Hm U Sv0) as (P & Hh & Hg).
    pose proof (part_app _ _ _ _ _ _ _ _ _ P' P) as Pall.
    cbn [ccount cindex]. rewrite Ek, Em. destruct (rest ++ [comp]) as [|y ys] eqn:Eq; [destruct rest; discriminate|].
    cbn [lhas lget path_layer]. unfold contents. cbn [fst snd]. rewrite Er', (part_part_at _ _ _ _ _ _ P'), Hh, Hg. cbn [bind g_whole].
    split; [reflexivity|]. split.
    + rewrite put_root_put. unfold v'. rewrite (part_replace_replace _ _ _ _ _ _ _ _ Pq). destruct c' as [ks ls mm]. cbn in *. now rewrite Em.
    + exact (part_part_at _ _ _ _ _ _ Pall).
Qed.
Print Assumptions c91_config_part.
Example c91_config_ex :
  let h := [LinkKey (lit "b") (lit "a"); SetKey (lit "a") (0, [lit "s"]); SetKey (lit "x") (1, [])] in
  let m := [(3, obj1); (0, VInt 9)] in
  NoDup (map defines h) /\ resolves h (lit "b") (0, [lit "s"]) /\ part ce 3 obj1 [lit "s"] 4 (VPtr (Some (nums [4; 5; 6]%Z))) /\
  contents ce m (1, []) = Some (0, VInt 9) /\
  (exists w', vset cmax ce [lit "1"] 0 (VInt 9) false 4 (VPtr (Some (nums [4; 5; 6]%Z))) = Ok w') /\
  exists c c', do_steps (path_layer cmax ce) 9 (cempty m) h = Ok c /\ cset (path_layer cmax ce) 9 c [lit "b"; lit "1"] (1, []) = Ok c' /\
    contents ce (cmem c') (0, [lit "s"]) = Some (4, VPtr (Some (nums [4; 9]%Z))).
Proof.
  split; [cbn; repeat (constructor; [cbn; intuition discriminate|]); constructor|]. split.
  - apply (res_link _ _ (lit "a")); [cbn; tauto|]. apply res_set. cbn; tauto.
  - split.
    { eapply part_field; [reflexivity| |reflexivity|constructor]. split; [exact (ce_names 3 _ _ eq_refl)|]. eexists. split; [right; left; reflexivity|]. split; reflexivity. }
    split; [reflexivity|]. split; [eexists; vm_compute; reflexivity|]. do 2 eexists. split; [vm_compute; reflexivity|]. split; vm_compute; reflexivity.
Qed.
