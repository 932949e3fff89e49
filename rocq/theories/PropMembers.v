(* PropMembers.v - C93: members that are handed out for change, and traits of fields; more
   theorems for C53 and C54. *)
From Coq Require String. Import String.StringSyntax.
From Coq Require Import Relations.
From Verif Require Import Base ModelCore ModelTraits ModelPlumb ModelMembers SpecCore ProofCore ProofPlumb ProofTraits ExCore ProofCore2 PropCore ModelValue ProofValue PropValue.
Local Open Scope outcome_scope.

(* ==== C93 ==== *)
(* The lookups through a type that can be changed find exactly the members that the type itself
   declares, and those are the ones that the lookups through a const type find. *)
Theorem c93_own_fields : forall H a n, wf_heap H -> valid H a ->
  (declares_field H a n /\ exists f, field_immediate H a n = Ok f /\ field_ H a n = Ok f) \/
  (~ declares_field H a n /\ field_immediate H a n = Abort).
Proof.
  intros H a n W V. destruct (tget H a) as [t|] eqn:Et; [|apply nth_error_None in Et; unfold valid in V; lia].
  unfold field_immediate, field_, fuel_of. cbn [field_f]. rewrite Et. destruct (afind n (t_fields t)) as [f|] eqn:Ef.
  - left. split; [exists t; split; [exact Et|]; apply afind_In in Ef; apply in_map_iff; now exists (n, f)|eauto].
  - right. split; [|reflexivity]. intros (t' & Et' & Hn). rewrite Et in Et'. injection Et' as <-. apply afind_None in Ef. contradiction.
Qed.
Print Assumptions c93_own_fields.

Theorem c93_own_functions : forall H a n, wf_heap H -> valid H a ->
  (declares_fn H a n /\ exists os, function_immediate H a n = Ok os /\ function H a n = Ok os) \/
  (~ declares_fn H a n /\ function_immediate H a n = Abort).
Proof.
  intros H a n W V. destruct (tget H a) as [t|] eqn:Et; [|apply nth_error_None in Et; unfold valid in V; lia].
  unfold function_immediate, function, fuel_of. cbn [function_f]. rewrite Et. destruct (afind n (t_fns t)) as [f|] eqn:Ef.
  - left. split; [exists t; split; [exact Et|]; apply afind_In in Ef; apply in_map_iff; now exists (n, f)|eauto].
  - right. split; [|reflexivity]. intros (t' & Et' & Hn). rewrite Et in Et'. injection Et' as <-. apply afind_None in Ef. contradiction.
Qed.
Print Assumptions c93_own_functions.

(* a is the type whose declaration of the field n is the one that is found from b *)
Inductive declarer (H : heap) (n : str) (a : tptr) : tptr -> Prop :=
| declarer_own : declares_field H a n -> declarer H n a a
| declarer_up b p : ~ declares_field H b n -> parent_of H b p -> declarer H n a p -> declarer H n a b.

(* A trait on a field: refused for a field that the type does not declare itself and for a trait
   that the field has; otherwise the field has one more trait, for every type that finds it
   there, and nothing else is different. *)
Theorem c93_field_trait : forall H a n trait, wf_heap H -> valid H a ->
  (exists f H', field_immediate H a n = Ok f /\ ~ In trait (fd_traits f) /\ fieldTrait H a n trait = Ok H' /\
     let f' := Field (fd_name f) (fd_arg f) (fd_offset f) (fd_traits f ++ [trait]) in
     (forall b, declarer H n a b -> field_ H b n = Ok f /\ field_ H' b n = Ok f') /\
     (forall b m, m <> n \/ ~ declarer H n a b -> field_ H' b m = field_ H b m) /\
     (forall b, b <> a -> tget H' b = tget H b) /\
     (exists t t', tget H a = Some t /\ tget H' a = Some t' /\ t_id t' = t_id t /\ t_parent t' = t_parent t /\ t_traits t' = t_traits t /\
        t_pointer t' = t_pointer t /\ t_pointee t' = t_pointee t /\ t_fns t' = t_fns t /\ map fst (t_fields t') = map fst (t_fields t)) /\
     h_void H' = h_void H /\ h_value H' = h_value H /\ length (h_types H') = length (h_types H)) \/
  (fieldTrait H a n trait = Abort /\ (declares_field H a n -> exists f, field_immediate H a n = Ok f /\ In trait (fd_traits f))).
Proof.
  intros H a n trait W V. destruct (tget H a) as [t|] eqn:Et; [|apply nth_error_None in Et; unfold valid in V; lia].
  unfold fieldTrait. destruct (c93_own_fields H a n W V) as [(D & f & Ef & Ef2)|(D & ->)].
  2: { right. split; [reflexivity|]. intro X. contradiction. }
  rewrite Ef. cbn [bind]. unfold addTrait. destruct (smem trait (fd_traits f)) eqn:Em; cbn [bind].
  { right. split; [reflexivity|]. intros _. exists f. split; [reflexivity|]. now apply smem_In. }
  left. rewrite Et. exists f. eexists. split; [reflexivity|]. split; [intro X; apply smem_In in X; congruence|]. split; [reflexivity|].
  cbv zeta. set (f' := Field _ _ _ _). set (t' := Type_ _ _ _ _ _ _ _). set (H' := set_type H a t').
  assert (Ef0 : afind n (t_fields t) = Some f) by (unfold field_immediate in Ef; rewrite Et in Ef; destruct (afind n (t_fields t)); congruence).
  assert (Fu : fuel_of H' = fuel_of H) by (unfold fuel_of, H', set_type; cbn [h_types]; now rewrite length_set_nth).
  assert (T' : forall b, tget H' b = if Nat.eqb b a then Some t' else tget H b) by (intro b; now apply tget_set).
  assert (Oth : forall k b m, m <> n \/ ~ declarer H n a b -> field_f k H' b m = field_f k H b m).
  { induction k as [|k IH]; intros b m Hm; [reflexivity|]. cbn [field_f]. rewrite T'. destruct (Nat.eqb_spec b a) as [->|Nb].
    - rewrite Et. cbn [t_fields t_parent t']. destruct Hm as [Hm|Hm]; [|exfalso; apply Hm; now constructor].
      rewrite afind_aset_other by exact Hm. destruct (afind m (t_fields t)); [reflexivity|]. destruct (t_parent t); [|reflexivity]. apply IH. now left.
    - destruct (tget H b) as [u|] eqn:Eu; [|reflexivity]. destruct (afind m (t_fields u)) eqn:Em2; [reflexivity|]. destruct (t_parent u) as [p|] eqn:Ep; [|reflexivity].
      apply IH. destruct (list_eq_dec N.eq_dec m n) as [->|Nm]; [|now left]. destruct Hm as [Hm|Hm]; [now left|]. right. intro X. apply Hm.
      apply (declarer_up H n a b p); [|exists u; auto|exact X]. intros (u' & Eu' & Hn). rewrite Eu in Eu'. injection Eu' as <-. apply afind_None in Em2. contradiction. }
  assert (Own : forall b, declarer H n a b -> forall k, (field_f k H b n = Ok f /\ field_f k H' b n = Ok f') \/ field_f k H b n = OutOfFuel).
  { induction 1 as [D0|b p Nd (u & Eu & Ep) _ IH]; (intros [|k]; [now right|]); cbn [field_f]; rewrite T'.
    - left. rewrite Nat.eqb_refl, Et, Ef0. cbn [t_fields t']. now rewrite afind_aset_same.
    - assert (En : afind n (t_fields u) = None). { destruct (afind n (t_fields u)) as [x|] eqn:Ex; [|reflexivity]. exfalso. apply Nd. exists u. split; [exact Eu|]. apply afind_In in Ex. apply in_map_iff. now exists (n, x). }
      destruct (Nat.eqb_spec b a) as [->|Nb]; [exfalso; contradiction|]. rewrite Eu, En, Ep. now apply IH. }
  split; [|split; [|split; [|split; [|split; [|split]]]]].
  - intros b Hb. unfold field_. rewrite Fu. destruct (Own b Hb (fuel_of H)) as [X|X]; [exact X|]. exfalso.
    assert (Vb : valid H b). { clear - Hb. destruct Hb as [(t & E & _)|b p _ (t & E & _) _]; unfold valid; apply nth_error_Some; unfold tget in E; congruence. }
    destruct (c11_fields H b n W Vb) as [(_ & _ & x & E & _)|(_ & _ & E)]; unfold field_ in E; congruence.
  - intros b m Hm. unfold field_. rewrite Fu. now apply Oth.
  - intros b Nb. rewrite T'. now rewrite (proj2 (Nat.eqb_neq _ _) Nb).
  - exists t, t'. rewrite T', Nat.eqb_refl. repeat split; auto. cbn [t_fields t'].
    clear - Ef0. induction (t_fields t) as [|[k x] l IH]; [discriminate|]. cbn in *. destruct (str_eqb_spec n k) as [->|N]; [reflexivity|]. cbn. now rewrite IH.
  - reflexivity.
  - reflexivity.
  - cbn. apply length_set_nth.
Qed.
Print Assumptions c93_field_trait.

(* a is the type whose declaration of the function n is the one that is found from b *)
Inductive fn_declarer (H : heap) (n : str) (a : tptr) : tptr -> Prop :=
| fn_declarer_own : declares_fn H a n -> fn_declarer H n a a
| fn_declarer_up b p : ~ declares_fn H b n -> parent_of H b p -> fn_declarer H n a p -> fn_declarer H n a b.

(* The traits of a function are those of the declaration that is found; a function that is not
   there has none to give: it is an error to ask. *)
Theorem c93_function_traits : forall H FT b n, wf_heap H -> valid H b ->
  (exists a, fn_declarer H n a b /\ function_traits H FT b n = Ok (FT a n)) \/
  ((forall a, ~ fn_declarer H n a b) /\ function_traits H FT b n = Abort).
Proof.
  intros H FT b n W V.
  assert (G : forall k b, match function_f k H b n with
                          | Ok _ => exists a, fn_declarer H n a b /\ function_traits_f k H FT b n = Ok (FT a n)
                          | Abort => (forall a, ~ fn_declarer H n a b) /\ function_traits_f k H FT b n = Abort
                          | _ => True end).
  { induction k as [|k IH]; intro c; [exact I|]. cbn [function_f function_traits_f]. destruct (tget H c) as [u|] eqn:Eu; [|exact I].
    destruct (afind n (t_fns u)) as [o|] eqn:Eo.
    - exists c. split; [|reflexivity]. constructor. exists u. split; [exact Eu|]. apply afind_In in Eo. apply in_map_iff. now exists (n, o).
    - assert (Nd : ~ declares_fn H c n). { intros (u' & Eu' & Hn). rewrite Eu in Eu'. injection Eu' as <-. apply afind_None in Eo. contradiction. }
      destruct (t_parent u) as [p|] eqn:Ep.
      + specialize (IH p). destruct (function_f k H p n).
        * destruct IH as (a0 & Ha & E). exists a0. split; [|exact E]. apply (fn_declarer_up H n a0 c p); [exact Nd|exists u; auto|exact Ha].
        * destruct IH as (Hn & E). split; [|exact E]. intros a X. destruct X as [D|c' p' _ (u' & Eu' & Ep') X]; [contradiction|].
          rewrite Eu in Eu'. injection Eu' as <-. rewrite Ep in Ep'. injection Ep' as <-. now apply (Hn a).
        * exact I.
        * exact I.
        * exact I.
      + split; [|reflexivity]. intros a X. destruct X as [D|c' p' _ (u' & Eu' & Ep') X]; [contradiction|].
        rewrite Eu in Eu'. injection Eu' as <-. congruence. }
  specialize (G (fuel_of H) b). unfold function_traits. destruct (c11_functions H b n W V) as [(_ & _ & x & E & _)|(_ & _ & E)]; unfold function in E; rewrite E in G; auto.
Qed.
Print Assumptions c93_function_traits.
(* The same for a trait on a function: refused for a function that the type does not declare
   itself and for a trait that the function has; otherwise every type that finds the function
   there sees one trait more, and no other function, of no other type, changes. *)
Theorem c93_function_trait : forall H FT a n trait, wf_heap H -> valid H a ->
  (exists l FT', declares_fn H a n /\ ~ In trait l /\ fnTrait H FT a n trait = Ok FT' /\
     (forall b, fn_declarer H n a b -> function_traits H FT b n = Ok l /\ function_traits H FT' b n = Ok (l ++ [trait])) /\
     (forall b m, m <> n \/ ~ fn_declarer H n a b -> function_traits H FT' b m = function_traits H FT b m)) \/
  (fnTrait H FT a n trait = Abort /\ (declares_fn H a n -> exists l, function_traits H FT a n = Ok l /\ In trait l)).
Proof.
  intros H FT a n trait W V. destruct (tget H a) as [t|] eqn:Et; [|apply nth_error_None in Et; unfold valid in V; lia].
  unfold fnTrait. destruct (c93_own_functions H a n W V) as [(D & os & Ef & _)|(D & ->)].
  2: { right. split; [reflexivity|]. intro X. contradiction. }
  rewrite Ef. cbn [bind]. unfold addTrait.
  assert (Ef0 : exists x, afind n (t_fns t) = Some x) by (unfold function_immediate in Ef; rewrite Et in Ef; destruct (afind n (t_fns t)); [eauto|discriminate]).
  destruct Ef0 as (os0 & Ef0).
  destruct (smem trait (FT a n)) eqn:Em; cbn [bind].
  { right. split; [reflexivity|]. intros _. exists (FT a n). split; [|now apply smem_In]. unfold function_traits, fuel_of. cbn [function_traits_f]. now rewrite Et, Ef0. }
  left. exists (FT a n). eexists. split; [exact D|]. split; [intro X; apply smem_In in X; congruence|]. split; [reflexivity|].
  set (FT' := fun (b : tptr) (m : str) => if Nat.eqb b a && str_eqb m n then FT a n ++ [trait] else FT b m).
  assert (Oth : forall k b m, m <> n \/ ~ fn_declarer H n a b -> function_traits_f k H FT' b m = function_traits_f k H FT b m).
  { induction k as [|k IH]; intros b m Hm; [reflexivity|]. cbn [function_traits_f].
    destruct (tget H b) as [u|] eqn:Eu; [|reflexivity]. destruct (afind m (t_fns u)) eqn:Em2.
    - f_equal. unfold FT'. destruct (Nat.eqb_spec b a) as [->|Nb]; [|reflexivity]. destruct (str_eqb_spec m n) as [->|Nm]; [|reflexivity].
      destruct Hm as [Hm|Hm]; [contradiction|]. exfalso. apply Hm. now constructor.
    - destruct (t_parent u) as [p|] eqn:Ep; [|reflexivity]. apply IH. destruct (list_eq_dec N.eq_dec m n) as [->|Nm]; [|now left].
      destruct Hm as [Hm|Hm]; [now left|]. right. intro X. apply Hm.
      apply (fn_declarer_up H n a b p); [|exists u; auto|exact X]. intros (u' & Eu' & Hn). rewrite Eu in Eu'. injection Eu' as <-. apply afind_None in Em2. contradiction. }
  assert (Own : forall b, fn_declarer H n a b -> forall k, (function_traits_f k H FT b n = Ok (FT a n) /\ function_traits_f k H FT' b n = Ok (FT a n ++ [trait])) \/
                                                        (function_traits_f k H FT b n = OutOfFuel /\ function_f k H b n = OutOfFuel)).
  { induction 1 as [D0|b p Nd (u & Eu & Ep) _ IH]; (intros [|k]; [now right|]); cbn [function_traits_f function_f].
    - left. rewrite Et, Ef0. split; [reflexivity|]. unfold FT'. now rewrite Nat.eqb_refl, str_eqb_refl.
    - assert (En : afind n (t_fns u) = None). { destruct (afind n (t_fns u)) as [x|] eqn:Ex; [|reflexivity]. exfalso. apply Nd. exists u. split; [exact Eu|]. apply afind_In in Ex. apply in_map_iff. now exists (n, x). }
      rewrite Eu, En, Ep. apply IH. }
  split.
  - intros b Hb. unfold function_traits. destruct (Own b Hb (fuel_of H)) as [X|(_ & X)]; [exact X|]. exfalso.
    assert (Vb : valid H b). { clear - Hb. destruct Hb as [(t & E & _)|b p _ (t & E & _) _]; unfold valid; apply nth_error_Some; unfold tget in E; congruence. }
    destruct (c11_functions H b n W Vb) as [(_ & _ & x & E & _)|(_ & _ & E)]; unfold function in E; congruence.
  - intros b m Hm. unfold function_traits. now apply Oth.
Qed.
Print Assumptions c93_function_trait.
(* Derived::foo gets a trait: Grand, its child, sees it; twice is refused; Base::foo, which
   Derived::foo hides, has none *)
Example c93_function_ex : fn_declarer exHeap (lit "foo") 4 9 /\ ~ fn_declarer exHeap (lit "foo") 4 3 /\
  match fnTrait exHeap (fun _ _ => []) 4 (lit "foo") (lit "hot") with
  | Ok FT => function_traits exHeap FT 9 (lit "foo") = Ok [lit "hot"] /\ function_traits exHeap FT 3 (lit "foo") = Ok [] /\
             fnTrait exHeap FT 4 (lit "foo") (lit "hot") = Abort /\
             function_traits exHeap FT 9 (lit "nope") = Abort
  | _ => False
  end.
Proof.
  split; [|split; [|vm_compute; auto]].
  - apply (fn_declarer_up _ _ _ 9 4); [|eexists; split; reflexivity|apply fn_declarer_own; eexists; split; [reflexivity|left; reflexivity]].
    intros (t & E & Hn). injection E as <-. exact Hn.
  - assert (G : forall a b, fn_declarer exHeap (lit "foo") a b -> a = b \/ ~ declares_fn exHeap b (lit "foo")) by (intros a b []; auto).
    intro X. apply G in X. destruct X as [X|X]; [discriminate|]. apply X. eexists. split; [reflexivity|]. left. reflexivity.
Qed.

(* A parameter that takes its argument by value, of a type that cannot be copied in C++: even
   where the reflected type says that it can be, the call is reported, it does not happen. *)
Theorem c53_by_value_needs_copy : forall n E H st v T c w st', T <> h_value H -> cpp_copyable E T = false ->
  cast_f n E H st v (Arg T Copy c) = Ok (w, st') -> pass n E H st v (Arg T Copy c) = Abort.
Proof.
  intros n E H st v T c w st' NT Hc Hk. unfold pass. cbn [a_type a_ref]. rewrite (proj2 (Nat.eqb_neq _ _) NT). cbn [andb]. rewrite Hk. cbn [bind].
  unfold cast_ret. cbn [a_ref a_type ref_eqb andb]. now rewrite Hc.
Qed.
Print Assumptions c53_by_value_needs_copy.
(* the same for an rvalue that can neither be moved nor copied *)
Theorem c53_rvalue_needs_move : forall n E H st v T c w st', cpp_movable E T = false -> cpp_copyable E T = false ->
  cast_f n E H st v (Arg T RValue c) = Ok (w, st') -> pass n E H st v (Arg T RValue c) = Abort.
Proof.
  intros n E H st v T c w st' Hm Hc Hk. unfold pass. cbn [a_type a_ref ref_eqb]. rewrite Bool.andb_false_r, Hk. cbn [bind].
  unfold cast_ret. cbn [a_ref a_type ref_eqb andb]. now rewrite Hm, Hc.
Qed.
Print Assumptions c53_rvalue_needs_move.
Definition movesCpp : cpp := Cpp (fun _ => false) (fun _ => true) (fun _ _ => (99, 0%N)) (fun _ _ => void_value valHeap).
Definition stuckCpp : cpp := Cpp (fun _ => false) (fun _ => false) (fun _ _ => (99, 0%N)) (fun _ _ => void_value valHeap).
Example c53_by_value_needs_copy_ex : let v := Val (Arg 11 LValue false) (7, 0%N) false in
  (exists w st', cast_f 5 movesCpp valHeap st0 v (Arg 11 Copy false) = Ok (w, st')) /\ pass 5 movesCpp valHeap st0 v (Arg 11 Copy false) = Abort /\
  (exists w st', cast_f 5 stuckCpp valHeap st0 v (Arg 11 RValue false) = Ok (w, st')) /\ pass 5 stuckCpp valHeap st0 v (Arg 11 RValue false) = Abort /\
  (exists q st', pass 5 exCpp valHeap st0 v (Arg 11 Copy false) = Ok (q, st')).
Proof. cbv zeta. split; [do 2 eexists; vm_compute; reflexivity|]. split; [vm_compute; reflexivity|]. split; [do 2 eexists; vm_compute; reflexivity|]. split; [vm_compute; reflexivity|]. do 2 eexists. vm_compute. reflexivity. Qed.

(* Base::x gets a trait: Grand, two levels below, sees it; a second time is refused; Derived::y
   has none *)
Example c93_ex : declarer exHeap (lit "x") 3 9 /\ wf_heap exHeap /\ valid exHeap 3 /\
  match fieldTrait exHeap 3 (lit "x") (lit "json.hidden") with
  | Ok H' => (do f <- field_ H' 9 (lit "x"); Ok (fd_traits f)) = Ok [lit "json.hidden"] /\ (do f <- field_ H' 9 (lit "y"); Ok (fd_traits f)) = Ok [] /\
             fieldTrait H' 3 (lit "x") (lit "json.hidden") = Abort
  | _ => False
  end.
Proof.
  assert (N : forall b, b = 9 \/ b = 4 -> ~ declares_field exHeap b (lit "x")).
  { intros b [->| ->] (t & E & Hn); injection E as <-; cbn in Hn; intuition discriminate. }
  split; [|split; [exact exHeap_wf|split; [unfold valid; cbn; lia|vm_compute; auto]]].
  apply (declarer_up _ _ _ 9 4); [auto|eexists; split; reflexivity|]. apply (declarer_up _ _ _ 4 3); [auto|eexists; split; reflexivity|].
  apply declarer_own. eexists. split; [reflexivity|left; reflexivity].
Qed.

(* A member that the type has, but from its parent, cannot be changed through it. *)
Theorem c93_inherited_refuted : exists H a n m, wf_heap H /\ valid H a /\ hasField H a n = Ok true /\ hasFunction H a m = Ok true /\
  field_immediate H a n = Abort /\ function_immediate H a m = Abort /\ forall trait, fieldTrait H a n trait = Abort.
Proof. exists exHeap, 9, (lit "x"), (lit "foo"). split; [exact exHeap_wf|]. split; [unfold valid; cbn; lia|]. repeat split. Qed.
Print Assumptions c93_inherited_refuted.

(* What move() leaves behind designates nothing, owns nothing and is not const. *)
Theorem c54_moved_from_is_void : forall n E H st v, isMovable H (v_type v) = Ok true ->
  let x := snd (value_move n E H st v) in
  v_type x = h_void H /\ v_addr x = null_addr /\ v_stored x = false /\ a_const (v_arg x) = false.
Proof. intros n E H st v Hm. unfold value_move. rewrite Hm. repeat split. Qed.
Print Assumptions c54_moved_from_is_void.
Example c54_moved_from_ex : isMovable valHeap 8 = Ok true /\ v_stored (snd (value_move 5 exCpp valHeap st0 (Val (Arg 8 LValue false) (7, 0%N) true))) = false.
Proof. split; reflexivity. Qed.
