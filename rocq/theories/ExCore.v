(* ExCore.v - a concrete type heap used by the non-vacuity examples and by the
   refutation witnesses of PropCore.v, and a checker for its well-formedness. *)
From Coq Require String.
Import String.StringSyntax.
From Coq Require Import Permutation Relations.
From Verif Require Import Base ModelCore SpecCore ProofCore ProofMatch ModelTraits ProofTraits.

(* With the index as rank: every link goes to a smaller index. *)
Definition link_ok (n : nat) (o : option tptr) : bool :=
  match o with None => true | Some p => Nat.ltb p n end.
Fixpoint links_ok (n : nat) (l : list typerec) : bool :=
  match l with
  | [] => true
  | t :: l' => link_ok n (t_parent t) && link_ok n (t_pointee t)
               && (negb (smem (lit "pointer") (t_traits t)) || match t_pointee t with Some _ => true | None => false end)
               && links_ok (S n) l'
  end.
Definition wf_check (H : heap) : bool :=
  links_ok 0 (h_types H) && Nat.ltb (h_void H) (length (h_types H)) && Nat.ltb (h_value H) (length (h_types H)).

Lemma links_ok_nth l : forall n i t, links_ok n l = true -> nth_error l i = Some t ->
  (forall p, t_parent t = Some p \/ t_pointee t = Some p -> p < n + i) /\
  (In (lit "pointer") (t_traits t) -> exists p, t_pointee t = Some p).
Proof.
  induction l as [|u l IH]; intros n [|i] t C E; cbn [links_ok nth_error] in *; try discriminate.
  - injection E as ->. apply andb_true_iff in C as [C _]. apply andb_true_iff in C as [C C3].
    apply andb_true_iff in C as [C1 C2]. split.
    + intros p [E|E]; [rewrite E in C1; cbn in C1; apply Nat.ltb_lt in C1; lia|].
      rewrite E in C2; cbn in C2; apply Nat.ltb_lt in C2; lia.
    + intro Hp. apply smem_In in Hp. rewrite Hp in C3. cbn in C3.
      destruct (t_pointee t); [eauto|discriminate].
  - apply andb_true_iff in C as [_ C]. destruct (IH (S n) i t C E) as [A B]. split; auto.
    intros p Hp. specialize (A p Hp). lia.
Qed.

Lemma wf_check_ok H : wf_check H = true -> wf_heap H.
Proof.
  unfold wf_check. intro C. apply andb_true_iff in C as [C C3]. apply andb_true_iff in C as [C C2].
  apply Nat.ltb_lt in C2, C3.
  assert (L : forall a p, link H a p -> p < a /\ a < length (h_types H)).
  { intros a p (t & E & Hp). destruct (links_ok_nth _ 0 a t C E) as [A _]. specialize (A p Hp).
    split; [lia|]. apply nth_error_Some. unfold tget in E. congruence. }
  constructor; auto.
  - intros a p Hl. apply L in Hl. unfold valid. lia.
  - intros a (t & E & Hp). destruct (links_ok_nth _ 0 a t C E) as [_ B]. destruct (B Hp) as [p Ep].
    exists (t_pointer t), p, t. auto.
  - exists (fun x => x). intros a p Hl. apply L in Hl. lia.
Qed.

(* 0 void, 1 reflect::Value, 2 int, 3 Base, 4 Derived : Base, 5 Base*, 6 Derived*,
   7 Str (converts to int), 8 Unique (move only), 9 Grand : Derived *)
Definition ex_lit_int := lit "int".
Definition exTypes : list typerec :=
  [ newType (lit "void");
    newType (lit "reflect::Value");
    Type_ (lit "int") None [lit "primitive"] [] None []
      [ (lit "int", [ Fn (lit "int") (Arg 2 Copy false) [Arg 2 LValue true] 1 ]) ];
    Type_ (lit "Base") None [] [] None
      [ (lit "x", Field (lit "x") (Arg 2 Copy false) 0 []) ]
      [ (lit "foo", [ Fn (lit "foo") (Arg 2 Copy false) [Arg 3 LValue true] 2 ]);
        (lit "Base", [ Fn (lit "Base") (Arg 3 Copy false) [] 3; Fn (lit "Base") (Arg 3 Copy false) [Arg 3 LValue true] 4 ]) ];
    Type_ (lit "Derived") (Some 3) [] [] None
      [ (lit "y", Field (lit "y") (Arg 2 Copy false) 8 []) ]
      [ (lit "foo", [ Fn (lit "foo") (Arg 2 Copy false) [Arg 4 LValue false] 5 ]);
        (lit "bar", [ Fn (lit "bar") (Arg 0 Copy false) [Arg 4 LValue true; Arg 2 Copy false] 6 ]) ];
    Type_ (lit "Base*") None [lit "pointer"] (lit "*") (Some 3) [] [];
    Type_ (lit "Derived*") None [lit "pointer"] (lit "*") (Some 4) [] [];
    Type_ (lit "Str") None [] [] None []
      [ (lit "operator int()", [ Fn (lit "operator int()") (Arg 2 Copy false) [Arg 7 LValue true] 7 ]) ];
    Type_ (lit "Unique") None [] [] None []
      [ (lit "Unique", [ Fn (lit "Unique") (Arg 8 Copy false) [Arg 8 RValue false] 8 ]) ];
    Type_ (lit "Grand") (Some 4) [] [] None [] [] ].
Definition exHeap : heap := Heap exTypes 0 1.

Lemma exHeap_wf : wf_heap exHeap.
Proof. apply wf_check_ok. reflexivity. Qed.

Lemma exHeap_cases a t : tget exHeap a = Some t -> a < 10.
Proof. intro E. apply tget_valid in E. exact E. Qed.

Ltac ex_cases a :=
  do 10 (destruct a as [|a]; [|]); try (match goal with H : tget exHeap _ = Some _ |- _ => apply exHeap_cases in H; lia end).

Lemma exHeap_pni : pointers_not_inherited exHeap.
Proof.
  intros a p (t & E & Ep).
  assert (Hp : (a = 4 /\ p = 3) \/ (a = 9 /\ p = 4)).
  { pose proof (exHeap_cases _ _ E). do 10 (destruct a as [|a]; [cbn in E; injection E as <-; cbn in Ep; try discriminate; injection Ep as <-; auto|]). lia. }
  assert (N : forall b, b = 3 \/ b = 4 \/ b = 9 -> ~ is_ptr exHeap b).
  { intros b Hb (u & Eu & Hu). destruct Hb as [->|[->| ->]]; cbn in Eu; injection Eu as <-; cbn in Hu; tauto. }
  destruct Hp as [[-> ->]|[-> ->]]; split; apply N; auto.
Qed.

Lemma exHeap_unique : pointers_unique exHeap.
Proof.
  assert (P : forall a k p, points_to exHeap a k p -> (a = 5 /\ p = 3) \/ (a = 6 /\ p = 4)).
  { intros a k p (t & E & Ht & _ & Ep). pose proof (exHeap_cases _ _ E).
    do 10 (destruct a as [|a]; [cbn in E; injection E as <-; cbn in Ep; try discriminate; injection Ep as <-; auto|]). lia. }
  intros a b k p Ha Hb. apply P in Ha, Hb. lia.
Qed.

(* a hierarchy that is its own ancestor: the parent setter does not check *)
Definition cycHeap : heap :=
  Heap [ newType (lit "void"); newType (lit "reflect::Value");
         Type_ (lit "A") (Some 3) [] [] None [] []; Type_ (lit "B") (Some 2) [] [] None [] []; newType (lit "C") ] 0 1.

Lemma cyc_diverges n : isChildOf_f n cycHeap 2 4 = OutOfFuel /\ isChildOf_f n cycHeap 3 4 = OutOfFuel.
Proof. induction n as [|n [IH1 IH2]]; [split; reflexivity|]. split; cbn; [exact IH2|exact IH1]. Qed.
