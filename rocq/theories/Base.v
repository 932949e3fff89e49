(* Base.v - byte strings, outcomes and association lists.
   Helper definitions shared by the model files.  No code of /repo is modelled
   here; the comments say which C++ notion each helper stands for. *)
From Coq Require Export List Arith NArith ZArith Bool Lia.
From Coq Require Import Ascii.
From Coq Require String.
Import String.StringSyntax.
Notation string := String.string.
Notation EmptyString := String.EmptyString.
Export ListNotations.

(* std::string: a sequence of bytes. *)
Definition byte := N.
Definition str := list byte.

(* Literal helper: turns a Coq string literal into bytes. *)
Fixpoint lit (s : string) : str :=
  match s with
  | EmptyString => []
  | String.String c s' => N_of_ascii c :: lit s'
  end.

Arguments lit s%string_scope.

(* std::string::operator== *)
Fixpoint str_eqb (a b : str) : bool :=
  match a, b with
  | [], [] => true
  | x :: a', y :: b' => N.eqb x y && str_eqb a' b'
  | _, _ => false
  end.

(* std::string::compare(...) < 0: lexicographic on unsigned bytes, a proper
   prefix is smaller. *)
Fixpoint str_ltb (a b : str) : bool :=
  match a, b with
  | [], [] => false
  | [], _ :: _ => true
  | _ :: _, [] => false
  | x :: a', y :: b' => if N.ltb x y then true else if N.eqb x y then str_ltb a' b' else false
  end.

(* The ways a C++ call can end: a result; reflectError (abort() or
   reflect::Error, src/error.cpp 35-43); a foreign std exception; undefined
   behaviour; or exhaustion of the fuel of a fuelled model function, which stands
   for "does not return within that many steps". *)
Inductive outcome (A : Type) : Type :=
| Ok (a : A)
| Abort
| Throw
| UB
| OutOfFuel.
Arguments Ok {A} a.
Arguments Abort {A}.
Arguments Throw {A}.
Arguments UB {A}.
Arguments OutOfFuel {A}.

Definition bind {A B} (x : outcome A) (f : A -> outcome B) : outcome B :=
  match x with
  | Ok a => f a
  | Abort => Abort
  | Throw => Throw
  | UB => UB
  | OutOfFuel => OutOfFuel
  end.

Declare Scope outcome_scope.
Delimit Scope outcome_scope with outcome.
Notation "'do' x <- e ; k" := (bind e (fun x => k))
  (at level 200, x pattern, e at level 100, k at level 200, right associativity) : outcome_scope.

(* std::unordered_map as an association list; find returns the first binding. *)
Fixpoint afind {V} (k : str) (m : list (str * V)) : option V :=
  match m with
  | [] => None
  | (k', v) :: m' => if str_eqb k k' then Some v else afind k m'
  end.

Definition ahas {V} (k : str) (m : list (str * V)) : bool :=
  match afind k m with Some _ => true | None => false end.

(* erase of a key *)
Fixpoint aerase {V} (k : str) (m : list (str * V)) : list (str * V) :=
  match m with
  | [] => []
  | (k', v) :: m' => if str_eqb k k' then aerase k m' else (k', v) :: aerase k m'
  end.

(* m[k] = v: replace in place, or append *)
Fixpoint aset {V} (k : str) (v : V) (m : list (str * V)) : list (str * V) :=
  match m with
  | [] => [(k, v)]
  | (k', v') :: m' => if str_eqb k k' then (k, v) :: m' else (k', v') :: aset k v m'
  end.

Definition akeys {V} (m : list (str * V)) : list str := map fst m.

Fixpoint smem (k : str) (l : list str) : bool :=
  match l with
  | [] => false
  | x :: l' => str_eqb k x || smem k l'
  end.

(* ---- basic facts about the helpers ---- *)

Lemma str_eqb_eq a b : str_eqb a b = true <-> a = b.
Proof.
  revert b; induction a as [|x a IH]; intros [|y b]; cbn; split; intro H; try discriminate; auto.
  - apply andb_true_iff in H as [H1 H2]. apply N.eqb_eq in H1. apply IH in H2. congruence.
  - injection H as -> ->. rewrite N.eqb_refl. apply IH. reflexivity.
Qed.

Lemma str_eqb_refl a : str_eqb a a = true.
Proof. apply str_eqb_eq; reflexivity. Qed.

Lemma str_eqb_neq a b : str_eqb a b = false <-> a <> b.
Proof.
  split; intro H.
  - intros ->. rewrite str_eqb_refl in H. discriminate.
  - destruct (str_eqb a b) eqn:E; auto. apply str_eqb_eq in E. contradiction.
Qed.

Lemma str_eqb_sym a b : str_eqb a b = str_eqb b a.
Proof.
  destruct (str_eqb a b) eqn:E; symmetry.
  - apply str_eqb_eq in E as ->. apply str_eqb_refl.
  - apply str_eqb_neq. apply str_eqb_neq in E. congruence.
Qed.

Definition str_dec (a b : str) : {a = b} + {a <> b} := list_eq_dec N.eq_dec a b.

Lemma str_eqb_spec a b : reflect (a = b) (str_eqb a b).
Proof.
  destruct (str_eqb a b) eqn:E; constructor.
  - now apply str_eqb_eq.
  - now apply str_eqb_neq.
Qed.

Lemma smem_In k l : smem k l = true <-> In k l.
Proof.
  induction l as [|x l IH]; cbn; [split; [discriminate|tauto]|].
  rewrite orb_true_iff, IH, str_eqb_eq. intuition congruence.
Qed.

Lemma afind_In {V} k (m : list (str * V)) v : afind k m = Some v -> In (k, v) m.
Proof.
  induction m as [|[k' v'] m IH]; cbn; [discriminate|].
  destruct (str_eqb_spec k k') as [->|E]; intro H.
  - injection H as ->. now left.
  - right; auto.
Qed.

Lemma afind_None {V} k (m : list (str * V)) : afind k m = None <-> ~ In k (akeys m).
Proof.
  induction m as [|[k' v'] m IH]; cbn; [tauto|].
  destruct (str_eqb_spec k k') as [->|E].
  - split; [discriminate|]. intro H; exfalso; apply H; now left.
  - rewrite IH. intuition congruence.
Qed.

Lemma afind_Some_key {V} k (m : list (str * V)) v : afind k m = Some v -> In k (akeys m).
Proof. intro H. apply afind_In in H. apply in_map_iff. exists (k, v); auto. Qed.

Lemma ahas_In {V} k (m : list (str * V)) : ahas k m = true <-> In k (akeys m).
Proof.
  unfold ahas. destruct (afind k m) eqn:E.
  - split; auto. intros _. eapply afind_Some_key; eauto.
  - apply afind_None in E. split; [discriminate|contradiction].
Qed.

Lemma In_akeys_afind {V} k (m : list (str * V)) : In k (akeys m) -> exists v, afind k m = Some v.
Proof.
  intro H. destruct (afind k m) eqn:E; eauto. apply afind_None in E. contradiction.
Qed.

Lemma afind_aset_same {V} k (v : V) m : afind k (aset k v m) = Some v.
Proof.
  induction m as [|[k' v'] m IH]; cbn; [now rewrite str_eqb_refl|].
  destruct (str_eqb k k') eqn:E; cbn; [now rewrite str_eqb_refl | now rewrite E].
Qed.

Lemma afind_aset_other {V} k k' (v : V) m : k <> k' -> afind k (aset k' v m) = afind k m.
Proof.
  intro Hne. induction m as [|[k2 v2] m IH]; cbn.
  - destruct (str_eqb_spec k k'); congruence.
  - destruct (str_eqb_spec k' k2) as [<-|E]; cbn.
    + destruct (str_eqb_spec k k'); congruence.
    + destruct (str_eqb_spec k k2); auto.
Qed.

Lemma afind_aerase_same {V} k (m : list (str * V)) : afind k (aerase k m) = None.
Proof.
  induction m as [|[k' v'] m IH]; cbn; auto.
  destruct (str_eqb k k') eqn:E; cbn; auto. now rewrite E.
Qed.

Lemma afind_aerase_other {V} k k' (m : list (str * V)) :
  k <> k' -> afind k (aerase k' m) = afind k m.
Proof.
  intro Hne. induction m as [|[k2 v2] m IH]; cbn; auto.
  destruct (str_eqb_spec k' k2) as [<-|E]; cbn.
  - destruct (str_eqb_spec k k'); congruence.
  - destruct (str_eqb_spec k k2); auto.
Qed.

Lemma afind_app {V} k (m1 m2 : list (str * V)) :
  afind k (m1 ++ m2) = match afind k m1 with Some v => Some v | None => afind k m2 end.
Proof.
  induction m1 as [|[k' v'] m1 IH]; cbn; auto. destruct (str_eqb k k'); auto.
Qed.

Lemma In_afind_NoDup {V} k (v : V) m : NoDup (akeys m) -> In (k, v) m -> afind k m = Some v.
Proof.
  induction m as [|[k' v'] m IH]; cbn; [tauto|].
  intros Hnd [H|H].
  - injection H as -> ->. now rewrite str_eqb_refl.
  - inversion Hnd as [|? ? Hni Hnd' E1]; subst.
    destruct (str_eqb_spec k k') as [->|E]; auto.
    exfalso; apply Hni. apply in_map_iff. exists (k', v); auto.
Qed.

Lemma akeys_aset {V} k (v : V) m :
  akeys (aset k v m) = if ahas k m then akeys m else akeys m ++ [k].
Proof.
  induction m as [|[k' v'] m IH]; cbn; auto.
  unfold ahas in *; cbn.
  destruct (str_eqb_spec k k') as [->|E]; cbn; auto.
  unfold akeys in *. rewrite IH. destruct (afind k m); reflexivity.
Qed.

Lemma NoDup_akeys_aset {V} k (v : V) m : NoDup (akeys m) -> NoDup (akeys (aset k v m)).
Proof.
  intro H. rewrite akeys_aset. destruct (ahas k m) eqn:E; auto.
  assert (~ In k (akeys m)) by (intro Hi; apply ahas_In in Hi; congruence).
  clear E. induction (akeys m) as [|x l IH]; cbn in *.
  - constructor; [tauto|constructor].
  - inversion H; subst. constructor.
    + rewrite in_app_iff; cbn. intuition congruence.
    + apply IH; auto.
Qed.

Lemma In_akeys_aerase {V} x k (m : list (str * V)) :
  In x (akeys (aerase k m)) <-> In x (akeys m) /\ x <> k.
Proof.
  induction m as [|[k' v'] m IH]; cbn; [tauto|].
  destruct (str_eqb_spec k k') as [<-|E]; cbn; rewrite ?IH; intuition congruence.
Qed.

Lemma NoDup_akeys_aerase {V} k (m : list (str * V)) : NoDup (akeys m) -> NoDup (akeys (aerase k m)).
Proof.
  induction m as [|[k' v'] m IH]; cbn; auto.
  intro H; inversion H; subst.
  destruct (str_eqb k k'); cbn; auto. constructor; auto.
  intro Hc. apply In_akeys_aerase in Hc. unfold akeys in *. tauto.
Qed.

(* str_ltb is a strict total order *)
Lemma str_ltb_irrefl a : str_ltb a a = false.
Proof.
  induction a as [|x a IH]; cbn; auto. rewrite N.ltb_irrefl, N.eqb_refl. auto.
Qed.

Lemma str_ltb_trans a b c : str_ltb a b = true -> str_ltb b c = true -> str_ltb a c = true.
Proof.
  revert b c; induction a as [|x a IH]; intros [|y b] [|z c]; cbn; try discriminate; auto.
  destruct (N.ltb_spec x y), (N.ltb_spec y z); intros H1 H2.
  - destruct (N.ltb_spec x z); auto; lia.
  - destruct (N.eqb_spec y z); try discriminate. subst.
    destruct (N.ltb_spec x z); auto; lia.
  - destruct (N.eqb_spec x y); try discriminate. subst.
    destruct (N.ltb_spec y z); auto; lia.
  - destruct (N.eqb_spec x y), (N.eqb_spec y z); try discriminate. subst.
    rewrite N.ltb_irrefl, N.eqb_refl. eauto.
Qed.

Lemma str_ltb_total a b : a = b \/ str_ltb a b = true \/ str_ltb b a = true.
Proof.
  revert b; induction a as [|x a IH]; intros [|y b]; cbn; auto.
  destruct (N.ltb_spec x y); auto.
  destruct (N.ltb_spec y x); auto.
  assert (x = y) by lia. subst. rewrite N.eqb_refl.
  destruct (IH b) as [->|[H1|H1]]; auto.
Qed.

Lemma str_ltb_asym a b : str_ltb a b = true -> str_ltb b a = false.
Proof.
  intro H. destruct (str_ltb b a) eqn:E; auto.
  pose proof (str_ltb_trans _ _ _ H E) as C. now rewrite str_ltb_irrefl in C.
Qed.

Lemma bind_Ok {A B} (x : outcome A) (f : A -> outcome B) b :
  bind x f = Ok b -> exists a, x = Ok a /\ f a = Ok b.
Proof. destruct x; cbn; try discriminate. eauto. Qed.
