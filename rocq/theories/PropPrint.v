(* PropPrint.v - property C68: a printed signature says which signature it is. *)
From Coq Require String.
Import String.StringSyntax.
From Verif Require Import Base ModelCore SpecCore ExCore.

(* ---- specification ---- *)
(* y ends with x *)
Definition ends_with (x y : str) : Prop := exists z, y = z ++ x.
(* Ids of registered C++ types: C++ spells no type with a parenthesis unless it
   is a function type, with a comma and a blank (the library joins template
   arguments with a bare comma), nor with a trailing reference, const or comma. *)
Record plain_id (i : str) : Prop := {
  pid_nonempty : i <> [];
  pid_paren : ~ In 40%N i;
  pid_comma : forall a b, i <> a ++ lit ", " ++ b;
  pid_no_ref : ~ ends_with (lit "&") i;
  pid_no_const : ~ ends_with (lit " const") i;
  pid_no_comma : ~ ends_with (lit ",") i }.
Definition plain_ids (H : heap) : Prop :=
  (forall a t, tget H a = Some t -> plain_id (t_id t)) /\
  (forall a b t u, tget H a = Some t -> tget H b = Some u -> t_id t = t_id u -> a = b).

(* ---- proofs ---- *)
Definition suffix_of (a : argument) : str :=
  (if a_const a then lit " const" else []) ++ match a_ref a with LValue => lit "&" | RValue => lit "&&" | Copy => [] end.
Definition peel_const (s : str) : bool * str :=
  match s with
  | c0 :: c1 :: c2 :: c3 :: c4 :: c5 :: s' =>
    if (N.eqb c0 116 && N.eqb c1 115 && N.eqb c2 110 && N.eqb c3 111 && N.eqb c4 99 && N.eqb c5 32)%bool then (true, s') else (false, s)
  | _ => (false, s)
  end.
Definition peel_ref (s : str) : reftype * str :=
  match s with
  | c0 :: s' => if N.eqb c0 38 then match s' with c1 :: s'' => if N.eqb c1 38 then (RValue, s'') else (LValue, s') | [] => (LValue, s') end
                else (Copy, s)
  | [] => (Copy, s)
  end.
Definition peel (s : str) : reftype * bool * str :=
  let (r, s1) := peel_ref (rev s) in let (c, s2) := peel_const s1 in (r, c, rev s2).

Lemma ends_rev x y : ends_with x y <-> exists z, rev y = rev x ++ z.
Proof.
  split; intros (z & E).
  - exists (rev z). now rewrite E, rev_app_distr.
  - exists (rev z). apply (f_equal (@rev N)) in E. now rewrite rev_app_distr, !rev_involutive in E.
Qed.
Lemma peel_const_no s : ~ ends_with (lit " const") (rev s) -> peel_const s = (false, s).
Proof.
  intro N. unfold peel_const. do 6 (destruct s as [|? s]; [reflexivity|]).
  destruct (_ && _)%bool eqn:E; [|reflexivity]. exfalso. apply N. apply ends_rev.
  repeat (apply andb_true_iff in E; destruct E as [E ?]). 
  repeat match goal with X : N.eqb _ _ = true |- _ => apply N.eqb_eq in X; subst end.
  exists s. rewrite rev_involutive. reflexivity.
Qed.
Lemma peel_ref_no s : ~ ends_with (lit "&") (rev s) -> peel_ref s = (Copy, s).
Proof.
  intro N. destruct s as [|c s]; [reflexivity|]. cbn. destruct (N.eqb_spec c 38); [|reflexivity].
  subst. exfalso. apply N. apply ends_rev. exists s. now rewrite rev_involutive.
Qed.
Lemma peel_ref_amp1 i : i <> [] -> ~ ends_with (lit "&") i -> peel_ref (38%N :: rev i) = (LValue, rev i).
Proof.
  intros N0 N. cbn. destruct (rev i) as [|c s] eqn:E; [reflexivity|]. destruct (N.eqb_spec c 38); [|reflexivity].
  subst. exfalso. apply N. apply ends_rev. exists s. exact E.
Qed.
Lemma peel_print i a : plain_id i -> peel (i ++ suffix_of a) = (a_ref a, a_const a, i).
Proof.
  intros P. unfold peel. rewrite rev_app_distr.
  assert (NR : ~ ends_with (lit "&") (rev (rev i))) by (rewrite rev_involutive; apply P).
  assert (NC : ~ ends_with (lit " const") (rev (rev i))) by (rewrite rev_involutive; apply P).
  assert (PC : peel_const (rev i) = (false, rev i)) by now apply peel_const_no.
  assert (PK : forall s, peel_const (116%N :: 115%N :: 110%N :: 111%N :: 99%N :: 32%N :: s) = (true, s)) by reflexivity.
  unfold suffix_of. destruct a as [T r c]. cbn [a_ref a_const].
  destruct c, r.
  all: cbn [app rev lit]; cbn -[peel_ref peel_const].
  - change (peel_ref (116%N :: 115%N :: 110%N :: 111%N :: 99%N :: 32%N :: rev i)) with (Copy, 116%N :: 115%N :: 110%N :: 111%N :: 99%N :: 32%N :: rev i).
    cbv iota beta. rewrite PK, rev_involutive. reflexivity.
  - change (peel_ref (38%N :: 116%N :: 115%N :: 110%N :: 111%N :: 99%N :: 32%N :: rev i)) with (LValue, 116%N :: 115%N :: 110%N :: 111%N :: 99%N :: 32%N :: rev i).
    cbv iota beta. rewrite PK, rev_involutive. reflexivity.
  - change (peel_ref (38%N :: 38%N :: 116%N :: 115%N :: 110%N :: 111%N :: 99%N :: 32%N :: rev i)) with (RValue, 116%N :: 115%N :: 110%N :: 111%N :: 99%N :: 32%N :: rev i).
    cbv iota beta. rewrite PK, rev_involutive. reflexivity.
  - rewrite (peel_ref_no _ NR), PC, rev_involutive. reflexivity.
  - rewrite peel_ref_amp1 by apply P. rewrite PC, rev_involutive. reflexivity.
  - change (peel_ref (38%N :: 38%N :: rev i)) with (RValue, rev i). cbv iota beta. rewrite PC, rev_involutive. reflexivity.
Qed.

Lemma print_arg_ok H a s : print_arg H a = Ok s -> exists t, tget H (a_type a) = Some t /\ s = t_id t ++ suffix_of a.
Proof.
  unfold print_arg, suffix_of. destruct (tget H (a_type a)) as [t|]; [|discriminate]. intro E. injection E as <-. exists t. auto.
Qed.
Lemma print_arg_inj H a b s : plain_ids H -> print_arg H a = Ok s -> print_arg H b = Ok s -> a = b.
Proof.
  intros [P U] Ea Eb. apply print_arg_ok in Ea as (t & Et & ->). apply print_arg_ok in Eb as (u & Eu & E).
  apply (f_equal peel) in E. rewrite !peel_print in E by eauto.
  destruct a as [A r c], b as [B r' c']. cbn in *. injection E as -> -> I. f_equal. eauto.
Qed.

(* strings with no comma-blank inside, nor a comma at the end *)
Definition unsplit (s : str) : Prop := (forall a b, s <> a ++ lit ", " ++ b) /\ ~ ends_with (lit ",") s.
Lemma unsplit_tl c s : unsplit (c :: s) -> unsplit s.
Proof.
  intros [A B]. split.
  - intros a b E. apply (A (c :: a) b). now rewrite E.
  - intros (z & E). apply B. exists (c :: z). now rewrite E.
Qed.
Definition tailish (x : str) : Prop := x = [] \/ exists y, x = lit ", " ++ y.
Lemma unsplit_app s1 : forall s2 x y, unsplit s1 -> unsplit s2 -> tailish x -> tailish y -> s1 ++ x = s2 ++ y -> s1 = s2 /\ x = y.
Proof.
  induction s1 as [|c s1 IH]; intros [|d s2] x y U1 U2 X Y E; cbn [app] in E.
  - auto.
  - exfalso. destruct X as [->|(x' & ->)]; [discriminate|]. cbn in E. injection E as <- E.
    destruct s2 as [|e s2].
    + destruct U2 as [_ U2]. apply U2. exists []. reflexivity.
    + injection E as <- E. destruct U2 as [U2 _]. apply (U2 [] s2). reflexivity.
  - exfalso. destruct Y as [->|(x' & ->)]; [discriminate|]. cbn in E. injection E as -> E.
    destruct s1 as [|e s1].
    + destruct U1 as [_ U1]. apply U1. exists []. reflexivity.
    + injection E as -> E. destruct U1 as [U1 _]. apply (U1 [] s1). reflexivity.
  - injection E as -> E. destruct (IH s2 x y) as [-> ->]; eauto using unsplit_tl.
Qed.

Lemma suffix_no_comma a : ~ In 44%N (suffix_of a).
Proof. unfold suffix_of. destruct (a_const a), (a_ref a); cbn; intuition discriminate. Qed.
Lemma print_unsplit i a : plain_id i -> unsplit (i ++ suffix_of a).
Proof.
  intro P. pose proof (suffix_no_comma a) as Nc. split.
  - intros x y E. cbn [lit] in E. change (lit ", ") with [44%N; 32%N] in E.
    destruct (Nat.lt_ge_cases (length x) (length i)) as [L|L].
    + assert (Ei : exists r, i = x ++ 44%N :: r).
      { exists (firstn (length i - length x - 1) ([32%N] ++ y)). 
        assert (F : firstn (length i) (i ++ suffix_of a) = i) by (rewrite firstn_app, Nat.sub_diag, firstn_all; cbn; apply app_nil_r).
        rewrite E in F. rewrite <- F at 1. rewrite firstn_app. rewrite firstn_all2 by lia. f_equal.
        cbn [app]. destruct (length i - length x) as [|k] eqn:Ek; [lia|]. cbn [firstn]. f_equal. f_equal. lia. }
      destruct Ei as (r & Ei). rewrite Ei in E. rewrite <- app_assoc in E. apply app_inv_head in E. cbn [app] in E. injection E as E.
      destruct r as [|c r].
      * apply (pid_no_comma i P). exists x. exact Ei.
      * cbn [app] in E. injection E as -> E. apply (pid_comma i P x r). exact Ei.
    + apply Nc. assert (In 44%N (skipn (length i) (i ++ suffix_of a))).
      { rewrite E, skipn_app. apply in_or_app. right. replace (length i - length x) with 0 by lia. left. reflexivity. }
      rewrite skipn_app, skipn_all, Nat.sub_diag in H. exact H.
  - intros (z & E). destruct (suffix_of a) as [|c s] eqn:Es.
    + rewrite app_nil_r in E. apply (pid_no_comma i P). exists z. exact E.
    + apply Nc. assert (X : rev (i ++ c :: s) = 44%N :: rev z) by (rewrite E, rev_app_distr; reflexivity).
      rewrite rev_app_distr in X. destruct (rev (c :: s)) as [|d s'] eqn:Er.
      { apply (f_equal (@length N)) in Er. rewrite rev_length in Er. discriminate. }
      cbn [app] in X. injection X as -> _. apply (proj2 (in_rev (c :: s) 44%N)). rewrite Er. left. reflexivity.
Qed.

Lemma print_args_tail H l s : print_args H false l = Ok s -> tailish s.
Proof.
  destruct l as [|a l]; cbn [print_args]; intro E; [injection E as <-; now left|].
  destruct (print_arg H a) as [x| | | |]; try discriminate. cbn [bind] in E. destruct (print_args H false l) as [y| | | |]; try discriminate.
  cbn [bind] in E. injection E as <-. right. exists (x ++ y). reflexivity.
Qed.
Lemma print_args_inj H : plain_ids H -> forall l l' first s, print_args H first l = Ok s -> print_args H first l' = Ok s -> l = l'.
Proof.
  intros P. induction l as [|a l IH]; intros [|b l'] first s E E'; cbn [print_args] in *; auto.
  - injection E as <-. destruct (print_arg H b) as [x| | | |] eqn:Eb; try discriminate. cbn [bind] in E'.
    destruct (print_args H false l') as [y| | | |]; try discriminate. cbn [bind] in E'. injection E' as E'.
    apply print_arg_ok in Eb as (t & Et & ->). apply app_eq_nil in E' as [_ E']. apply app_eq_nil in E' as [E' _].
    apply app_eq_nil in E' as [E' _]. exfalso. exact (pid_nonempty _ (proj1 P _ _ Et) E').
  - injection E' as <-. destruct (print_arg H a) as [x| | | |] eqn:Eb; try discriminate. cbn [bind] in E.
    destruct (print_args H false l) as [y| | | |]; try discriminate. cbn [bind] in E. injection E as E'.
    apply print_arg_ok in Eb as (t & Et & ->). apply app_eq_nil in E' as [_ E']. apply app_eq_nil in E' as [E' _].
    apply app_eq_nil in E' as [E' _]. exfalso. exact (pid_nonempty _ (proj1 P _ _ Et) E').
  - destruct (print_arg H a) as [x| | | |] eqn:Ea; try discriminate. cbn [bind] in E.
    destruct (print_args H false l) as [y| | | |] eqn:Ey; try discriminate. cbn [bind] in E. injection E as <-.
    destruct (print_arg H b) as [x'| | | |] eqn:Eb; try discriminate. cbn [bind] in E'.
    destruct (print_args H false l') as [y'| | | |] eqn:Ey'; try discriminate. cbn [bind] in E'. injection E' as E'.
    apply app_inv_head in E'.
    assert (U : unsplit x /\ unsplit x').
    { apply print_arg_ok in Ea as (t & Et & ->). apply print_arg_ok in Eb as (u & Eu & ->).
      split; apply print_unsplit; eapply P; eauto. }
    destruct (unsplit_app x' x y' y) as [-> ->]; try tauto; eauto using print_args_tail.
    rewrite (print_arg_inj H a b x P Ea Eb). f_equal. eapply IH; eauto.
Qed.

Lemma split_at (c : N) : forall a b x y, ~ In c a -> ~ In c b -> a ++ c :: x = b ++ c :: y -> a = b /\ x = y.
Proof.
  induction a as [|d a IH]; intros [|e b] x y Na Nb E; cbn [app] in E.
  - injection E. auto.
  - injection E as -> _. exfalso. apply Nb. now left.
  - injection E as -> _. exfalso. apply Na. now left.
  - injection E as -> E. destruct (IH b x y) as [-> ->]; auto; intro X; [apply Na|apply Nb]; now right.
Qed.

(* ===== C68 ===== *)
(* two functions that print the same have the same signature *)
Theorem c68_signature_unambiguous : forall H ret args ret' args' s, plain_ids H ->
  signature H ret args = Ok s -> signature H ret' args' = Ok s -> ret = ret' /\ args = args'.
Proof.
  intros H ret args ret' args' s P E E'. unfold signature in *.
  destruct (print_arg H ret) as [r| | | |] eqn:Er; try discriminate. cbn [bind] in E.
  destruct (print_args H true args) as [a| | | |] eqn:Ea; try discriminate. cbn [bind] in E. injection E as <-.
  destruct (print_arg H ret') as [r'| | | |] eqn:Er'; try discriminate. cbn [bind] in E'.
  destruct (print_args H true args') as [a'| | | |] eqn:Ea'; try discriminate. cbn [bind] in E'. injection E' as E'.
  assert (N : ~ In 40%N r /\ ~ In 40%N r').
  { assert (X : forall a, ~ In 40%N (suffix_of a)).
    { intro x. unfold suffix_of. destruct (a_const x), (a_ref x); cbn; intuition discriminate. }
    apply print_arg_ok in Er as (t & Et & ->). apply print_arg_ok in Er' as (u & Eu & ->).
    split; intro Y; apply in_app_or in Y as [Y|Y]; try (now apply X in Y);
      [apply (pid_paren _ (proj1 P _ _ Et) Y)|apply (pid_paren _ (proj1 P _ _ Eu) Y)]. }
  apply (split_at 40%N r' r (a' ++ lit ")") (a ++ lit ")")) in E'; try tauto. destruct E' as [-> E'].
  apply app_inv_tail in E' as ->. split; [eapply print_arg_inj|eapply print_args_inj]; eauto.
Qed.
Print Assumptions c68_signature_unambiguous.

(* every signature over registered types is printed *)
Theorem c68_signature_printed : forall H ret args, arg_valid H ret -> Forall (arg_valid H) args ->
  exists s, signature H ret args = Ok s.
Proof.
  intros H ret args Vr Va.
  assert (A : forall a, arg_valid H a -> exists s, print_arg H a = Ok s).
  { intros a V. unfold print_arg. destruct (tget H (a_type a)) eqn:E; [eauto|]. exfalso. unfold tget in E.
    apply nth_error_None in E. unfold arg_valid, valid in V. lia. }
  assert (B : forall first, exists s, print_args H first args = Ok s).
  { induction Va as [|a l V Va IH]; intro first; cbn [print_args]; [eauto|].
    destruct (A a V) as (x & ->). cbn [bind]. destruct (IH false) as (y & ->). cbn [bind]. eauto. }
  unfold signature. destruct (A ret Vr) as (x & ->). cbn [bind]. destruct (B true) as (y & ->). cbn [bind]. eauto.
Qed.
Print Assumptions c68_signature_printed.

(* the ids of a concrete registry are plain *)
Lemma plain_check i : (negb (str_eqb i []) && negb (existsb (N.eqb 40) i) && negb (existsb (N.eqb 44) i)
    && match rev i with 38%N :: _ => false | _ => true end && negb (fst (peel_const (rev i))))%bool = true -> plain_id i.
Proof.
  intro E. repeat (apply andb_true_iff in E; destruct E as [E ?]). 
  assert (NI : forall c, negb (existsb (N.eqb c) i) = true -> ~ In c i).
  { intros c X Y. apply negb_true_iff in X. assert (existsb (N.eqb c) i = true); [|congruence].
    apply existsb_exists. exists c. split; auto. apply N.eqb_refl. }
  constructor.
  - intros ->. discriminate.
  - now apply NI.
  - intros a b X. apply (NI 44%N); auto. rewrite X. apply in_or_app. right. left. reflexivity.
  - intro X. apply ends_rev in X as (z & X). rewrite X in *. discriminate.
  - intro X. apply ends_rev in X as (z & X). rewrite X in *. discriminate.
  - intros (z & X). apply (NI 44%N); auto. rewrite X. apply in_or_app. right. left. reflexivity.
Qed.
Example c68_ex : plain_ids exHeap /\
  signature exHeap (Arg 2 Copy false) [Arg 4 LValue true; Arg 5 RValue false] = Ok (lit "int(Derived const&, Base*&&)").
Proof.
  split; [|reflexivity]. split.
  - intros a t E. do 10 (destruct a as [|a]; [injection E as <-; apply plain_check; reflexivity|]). destruct a; discriminate.
  - intros a b t u Ea Eb E.
    do 10 (destruct a as [|a]; [injection Ea as <-; do 10 (destruct b as [|b]; [injection Eb as <-; first [reflexivity|discriminate]|]); destruct b; discriminate|]).
    destruct a; discriminate.
Qed.
(* ids the library does not refuse can make two signatures print alike: here a
   type called  int const  beside int *)
Theorem c68_odd_ids_refuted : exists H a b s, wf_heap H /\ a <> b /\ arg_valid H a /\ arg_valid H b /\
  (forall x y t u, tget H x = Some t -> tget H y = Some u -> t_id t = t_id u -> x = y) /\
  signature H a [] = Ok s /\ signature H b [] = Ok s.
Proof.
  exists (Heap [newType (lit "void"); newType (lit "reflect::Value"); newType (lit "int"); newType (lit "int const")] 0 1),
         (Arg 2 Copy true), (Arg 3 Copy false), (lit "int const()").
  split; [apply wf_check_ok; reflexivity|]. split; [discriminate|]. split; [unfold arg_valid, valid; cbn; lia|].
  split; [unfold arg_valid, valid; cbn; lia|]. split; [|split; reflexivity].
  intros a b t u Ea Eb E.
  do 4 (destruct a as [|a]; [injection Ea as <-; do 4 (destruct b as [|b]; [injection Eb as <-; first [reflexivity|discriminate]|]); destruct b; discriminate|]).
  destruct a; discriminate.
Qed.
Print Assumptions c68_odd_ids_refuted.
