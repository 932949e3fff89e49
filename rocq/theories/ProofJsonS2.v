(* ProofJsonS2.v - proofs: what the parsers do with a stack of enough room is what the
   parsers without a limit do. *)
From Verif Require Import Base Dec ModelJson ModelJsonT ModelJsonS.
From Coq Require Import Lia.
Local Open Scope outcome_scope.

(* y is x unless x ran out *)
Definition upto {A} (x y : outcome A) : Prop := x = OutOfFuel \/ y = x.
Lemma upto_refl {A} (x : outcome A) : upto x x. Proof. right; reflexivity. Qed.
Lemma upto_fuel {A} (y : outcome A) : upto OutOfFuel y. Proof. left; reflexivity. Qed.
Lemma upto_use {A} (x y : outcome A) : upto x y -> x <> OutOfFuel -> y = x.
Proof. intros [E|E] H; [contradiction|exact E]. Qed.
Lemma upto_bind {A B} (x y : outcome A) (f g : A -> outcome B) :
  upto x y -> (forall a, upto (f a) (g a)) -> upto (bind x f) (bind y g).
Proof.
  intros [->| ->] H; [left; reflexivity|].
  destruct x; cbn [bind]; auto using upto_refl.
Qed.
Lemma object_loop_upto {S : Type} (fn gn : str -> S -> reader -> outcome (S * reader)) :
  (forall k s r, upto (fn k s r) (gn k s r)) ->
  forall n m s r, n <= m -> upto (object_loop n fn s r) (object_loop m gn s r).
Proof.
  intros H. induction n as [|n IH]; intros m s r L; [apply upto_fuel|].
  destruct m as [|m]; [lia|]. cbn [object_loop].
  destruct (rok r); [|apply upto_refl].
  apply upto_bind; [apply upto_refl|intros [t r1]].
  apply upto_bind; [apply upto_refl|intros _].
  apply upto_bind; [apply upto_refl|intros [u r2]].
  apply upto_bind; [apply H|intros [s1 r3]].
  apply upto_bind; [apply upto_refl|intros [t2 r4]].
  destruct (same_type t2 TObjE); [apply upto_refl|]. apply IH. lia.
Qed.
Lemma array_loop_upto {S : Type} (fn gn : nat -> S -> reader -> outcome (S * reader)) :
  (forall k s r, upto (fn k s r) (gn k s r)) ->
  forall n m i s r, n <= m -> upto (array_loop n fn i s r) (array_loop m gn i s r).
Proof.
  intros H. induction n as [|n IH]; intros m i s r L; [apply upto_fuel|].
  destruct m as [|m]; [lia|]. cbn [array_loop].
  destruct (rok r); [|apply upto_refl].
  repeat (apply upto_bind; [first [apply upto_refl|apply H]|intros []]).
  destruct (same_type _ _); [apply upto_refl|]. apply IH. lia.
Qed.
Lemma object_upto {S : Type} (fn gn : str -> S -> reader -> outcome (S * reader)) n m s r :
  (forall k s r, upto (fn k s r) (gn k s r)) -> n <= m -> upto (parse_object n fn s r) (parse_object m gn s r).
Proof.
  intros H L. unfold parse_object. apply upto_bind; [apply upto_refl|intros [t r1]].
  destruct (same_type t TNull); [apply upto_refl|]. apply upto_bind; [apply upto_refl|intros [t2 r2]].
  destruct (same_type t2 TObjE); [apply upto_refl|]. apply object_loop_upto; assumption.
Qed.
Lemma array_upto {S : Type} (fn gn : nat -> S -> reader -> outcome (S * reader)) n m s r :
  (forall k s r, upto (fn k s r) (gn k s r)) -> n <= m -> upto (parse_array n fn s r) (parse_array m gn s r).
Proof.
  intros H L. unfold parse_array. apply upto_bind; [apply upto_refl|intros [t r1]].
  destruct (same_type t TNull); [apply upto_refl|]. apply upto_bind; [apply upto_refl|intros [t2 r2]].
  destruct (same_type t2 TArrE); [apply upto_refl|]. apply array_loop_upto; assumption.
Qed.

Lemma skip_upto : forall d n f r, d + n <= f -> upto (skip_s d n r) (skip f r).
Proof.
  induction d as [|d IH]; intros n f r L; [apply upto_fuel|].
  destruct f as [|f]; [lia|]. cbn [skip_s skip].
  apply upto_bind; [apply upto_refl|intros [t r1]].
  destruct (negb (rok r1)); [apply upto_refl|].
  destruct t; try apply upto_refl;
    (apply upto_bind; [|intros []; apply upto_refl]).
  - apply object_upto; [|lia]. intros k s r'.
    apply upto_bind; [apply IH; lia|intros; apply upto_refl].
  - apply array_upto; [|lia]. intros k s r'.
    apply upto_bind; [apply IH; lia|intros; apply upto_refl].
Qed.
Lemma dyn_upto : forall d n f v r, d + n <= f -> upto (dyn_s d n v r) (parse_dyn f v r).
Proof.
  induction d as [|d IH]; intros n f v r L; [apply upto_fuel|].
  destruct f as [|f]; [lia|]. cbn [dyn_s parse_dyn].
  apply upto_bind; [apply upto_refl|intros [t r1]].
  destruct t; try apply upto_refl;
    (apply upto_bind; [|intros []; apply upto_refl]).
  - apply object_upto; [|lia]. intros k s r'.
    apply upto_bind; [apply IH; lia|intros []; apply upto_refl].
  - apply array_upto; [|lia]. intros k s r'.
    apply upto_bind; [apply IH; lia|intros []; apply upto_refl].
Qed.
Lemma typed_upto e : forall d n f t v r, d + n <= f -> upto (typed_s d n e t v r) (parse_t f e t v r).
Proof.
  induction d as [|d IH]; intros n f t v r L; [apply upto_fuel|].
  destruct f as [|f]; [lia|]. cbn [typed_s parse_t].
  destruct (nth_error e t) as [k|]; [|apply upto_refl].
  destruct k; try apply upto_refl.
  - (* pointer *) apply upto_bind; [apply upto_refl|intros [tk r1]].
    destruct (same_type tk TNull); [apply upto_refl|].
    apply upto_bind; [apply IH; lia|intros [[]]; apply upto_refl].
  - (* map or list *)
    apply upto_bind; [|intros []; apply upto_refl].
    first [apply object_upto|apply array_upto]; [|lia]. intros k s r'.
    apply upto_bind; [apply IH; lia|intros [[]]; apply upto_refl].
  - apply upto_bind; [|intros []; apply upto_refl].
    first [apply object_upto|apply array_upto]; [|lia]. intros k s r'.
    apply upto_bind; [apply IH; lia|intros [[]]; apply upto_refl].
  - (* value *) apply upto_bind; [apply dyn_upto; lia|intros []; apply upto_refl].
  - (* object *)
    apply upto_bind; [|intros []; apply upto_refl].
    apply object_upto; [|lia]. intros k s r'.
    destruct (find_alias _ k); (apply upto_bind; [first [apply IH|apply skip_upto]; lia|]).
    + intros [[]]; apply upto_refl.
    + intros; apply upto_refl.
Qed.

Lemma init_upto e : forall n m t c, n <= m -> upto (init_parser n e t c) (init_parser m e t c).
Proof.
  induction n as [|n IH]; intros m t c L; [apply upto_fuel|].
  destruct m as [|m]; [lia|]. cbn [init_parser].
  destruct (existsb (Nat.eqb t) c); [apply upto_refl|].
  destruct (nth_error e t) as [k|]; [|apply upto_refl].
  destruct k; try apply upto_refl; try (apply IH; lia).
  destruct (dup_alias _); [apply upto_refl|].
  assert (G : forall l x y, upto x y ->
    upto (fold_left (fun acc fd => do c <- acc; init_parser n e (f_type fd) c) l x)
         (fold_left (fun acc fd => do c <- acc; init_parser m e (f_type fd) c) l y)).
  { induction l as [|a l IHl]; intros x y U; cbn [fold_left]; [exact U|].
    apply IHl. apply upto_bind; [exact U|]. intros; apply IH; lia. }
  apply G, upto_refl.
Qed.
