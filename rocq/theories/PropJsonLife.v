(* PropJsonLife.v - C87: objects destroyed while a document is read through pointers. *)
From Coq Require String. Import String.StringSyntax.
From Verif Require Import Base Dec ModelJson ModelJsonW ModelJsonT SpecJson ModelJsonH ProofJsonH1 ProofUMap ModelJsonL ProofJsonL1 ProofJsonL2 ProofJsonL3 ProofJsonL4 SpecJsonL.
Local Open Scope nat_scope.
Local Open Scope outcome_scope.

(* ==== C87 ==== *)
(* In the following, ext are the objects owned by somebody outside, e.g. by a local
   std::shared_ptr of the caller. *)

(* Reading a document into a sound graph never uses an object that was destroyed: it ends
   exactly as if nothing were ever destroyed (parse_graph), with the same content in every
   object still alive. *)
Theorem c87_no_destroyed_object_used : forall (ext : list nat) (fuel : nat) (o : ropts) (e : env) (t a : nat) (m : lstore) (mh : store) (s : str),
  no_dangling m -> apart ext m -> live m a -> chains_end m a -> agree m mh ->
  match parse_live ext fuel o e t a m s, parse_graph fuel o e t a mh s with
  | Ok (m', r), Ok (mh', r') => r = r' /\ agree m' mh'
  | Abort, Abort | Throw, Throw | UB, UB | OutOfFuel, OutOfFuel => True
  | _, _ => False
  end.
Proof.
  intros ext fuel o e t a m mh s Nd Ap Lv Ch Ag. assert (R : region ext (below m a) a m) by now apply start_region.
  pose proof (main ext e fuel t (below m a) a m m mh [] (reader_init o s) R (conj (frame_refl _ _ _ _ R) Ag)) as K.
  unfold parse_live, parse_graph. destruct (init_parser fuel e t []); cbn [bind]; try exact Logic.I.
  destruct (parse_l ext fuel e t (a, []) m (reader_init o s)) as [[[m' mv] r]| | | |], (parse_h fuel e t (a, []) mh (reader_init o s)) as [[[mh' mv'] r']| | | |];
    try contradiction K; try exact Logic.I. destruct K as ((F & A) & _ & E). cbn [fst snd bind] in *. auto.
Qed.
Print Assumptions c87_no_destroyed_object_used.

(* The graph is sound afterwards: no pointer leads to a destroyed object, so whatever can be
   reached is alive; the object read into is alive; and objects that could not be reached
   from it have neither changed nor been destroyed. *)
Theorem c87_graph_stays_sound : forall (ext : list nat) (fuel : nat) (o : ropts) (e : env) (t a : nat) (m m' : lstore) (s : str) (r : reader),
  no_dangling m -> apart ext m -> live m a -> chains_end m a ->
  parse_live ext fuel o e t a m s = Ok (m', r) ->
  no_dangling m' /\ apart ext m' /\ live m' a /\ (forall x, chains_end m x -> chains_end m' x) /\
  (forall x, x < length m -> ~ reached m a x -> nth_error m' x = nth_error m x) /\
  (forall x y, live m' x -> reached m' x y -> live m' y).
Proof.
  intros ext fuel o e t a m m' s r Nd Ap Lv Ch H. assert (R : region ext (below m a) a m) by now apply start_region.
  destruct (agree_exists m) as [mh Ag].
  pose proof (main ext e fuel t (below m a) a m m mh [] (reader_init o s) R (conj (frame_refl _ _ _ _ R) Ag)) as K.
  unfold parse_live in H. destruct (init_parser fuel e t []); try discriminate H. cbn [bind] in H.
  destruct (parse_l ext fuel e t (a, []) m (reader_init o s)) as [[[m2 mv] r2]| | | |]; try discriminate H. cbn [bind] in H. injection H as <- <-.
  destruct (parse_h fuel e t (a, []) mh (reader_init o s)) as [[[mh' mv'] r']| | | |]; try contradiction K. destruct K as ((F & _) & _). cbn [fst] in F.
  destruct F as [F1 F2 F3 F4 F5 F6 F7 F8]. split; [auto|]. split; [auto|]. split; [auto|]. split; [auto|]. split.
  - intros x Lx Nx. destruct (F2 x Lx) as [Q|[->|Q]]; [auto|destruct Nx; constructor|destruct Nx; now apply below_reached].
  - intros x y Lx Rx. eapply reached_live; eauto.
Qed.
Print Assumptions c87_graph_stays_sound.

(* An object somebody outside owns is never destroyed - whatever the graph. *)
Theorem c87_owned_outside_stays : forall (ext : list nat) (fuel : nat) (o : ropts) (e : env) (t a x : nat) (m m' : lstore) (s : str) (r : reader),
  parse_live ext fuel o e t a m s = Ok (m', r) -> In x ext -> live m x -> live m' x.
Proof.
  intros ext fuel o e t a x m m' s r H Ix Lx. unfold parse_live in H. destruct (init_parser fuel e t []); try discriminate H. cbn [bind] in H.
  assert (I0 : inv ext e m (fun _ => True) m) by (split; [auto|split; auto]).
  pose proof (owners_main ext e fuel t (a, []) m (fun _ => True) m (reader_init o s) I0) as K.
  destruct (parse_l ext fuel e t (a, []) m (reader_init o s)) as [[[m2 mv] r2]| | | |]; try discriminate H. cbn [bind] in H. injection H as <- <-.
  apply K; auto.
Qed.
Print Assumptions c87_owned_outside_stays.

(* Nothing is left over: where all pointers are smart, if every object alive other than the
   one read into has an owner, the same holds afterwards, of the objects made while reading
   too - those whose last owner is gone have been destroyed.  Whatever the graph. *)
Theorem c87_nothing_left_over : forall (ext : list nat) (fuel : nat) (o : ropts) (e : env) (t a : nat) (m m' : lstore) (s : str) (r : reader),
  (forall k i, nth_error e k <> Some (DPtr false i)) ->
  (forall x, live m x -> x = a \/ In x ext \/ pointer m true x) ->
  parse_live ext fuel o e t a m s = Ok (m', r) ->
  forall x, live m' x -> x = a \/ In x ext \/ pointer m' true x.
Proof.
  intros ext fuel o e t a m m' s r Np Hm H. unfold parse_live in H. destruct (init_parser fuel e t []); try discriminate H. cbn [bind] in H.
  assert (I0 : inv ext e m (fun x => x = a) m) by (split; [auto|split; [auto|intros _; exact Hm]]).
  pose proof (owners_main ext e fuel t (a, []) m (fun x => x = a) m (reader_init o s) I0) as K.
  destruct (parse_l ext fuel e t (a, []) m (reader_init o s)) as [[[m2 mv] r2]| | | |]; try discriminate H. cbn [bind] in H. injection H as <- <-.
  apply K; auto.
Qed.
Print Assumptions c87_nothing_left_over.

(* ---- examples ---- *)
(* struct Node { int64_t id; std::shared_ptr<Node> own; Node* ref; std::vector<std::shared_ptr<Node>> all; } *)
Definition lnode_env : env :=
  [DObj [mkF (lit "id") 1 false [] false; mkF (lit "own") 2 false [] false; mkF (lit "ref") 3 false [] false; mkF (lit "all") 4 false [] false]
        [(lit "id", VInt 0); (lit "own", VPtr None); (lit "ref", VPtr None); (lit "all", VList [])];
   DInt true; DPtr true 0; DPtr false 0; DList 2].
Definition lnode (z : Z) (own ref : option nat) (all : list nat) : option lval :=
  Some (LO [(lit "id", LV (VInt z)); (lit "own", LP true own); (lit "ref", LP false ref); (lit "all", LL (map (fun a => LP true (Some a)) all))]).
Definition hnode (z : Z) (own ref : option nat) (all : list nat) : hval :=
  HO [(lit "id", HV (VInt z)); (lit "own", HP own); (lit "ref", HP ref); (lit "all", HL (map (fun a => HP (Some a)) all))].
(* as a constructor leaves it: the kind of a null pointer does not matter *)
Definition made (z : Z) (own : option nat) : option lval :=
  Some (LO [(lit "id", LV (VInt z)); (lit "own", LP true own); (lit "ref", LP true None); (lit "all", LL [])]).
Definition qt (s : str) : str := [34%N] ++ s ++ [34%N].
Definition mem (n : str) (v : str) : str := qt n ++ lit ":" ++ v.

(* pointers that lead to objects with smaller addresses end *)
Lemma downhill m : (forall x y, points m x y -> y < x) -> forall a, chains_end m a.
Proof.
  intros H. assert (G : forall n a, a < n -> chains_end m a).
  { induction n as [|n IH]; intros a L; [lia|]. constructor. intros y P. apply IH. apply H in P. lia. }
  intro a. apply (G (S a)). lia.
Qed.
(* 3 owns 2 and, in its list, 1; 2 owns 1 and refers to 0; 0 is a local variable *)
Definition sound : lstore := [lnode 5 None None []; lnode 6 None None []; lnode 7 (Some 1) (Some 0) []; lnode 8 (Some 2) None [1]].
Lemma sound_pointers k x y h : nth_error sound x = Some (Some h) -> In (k, y) (ptrs h) -> (x, k, y) = (2, true, 1) \/ (x, k, y) = (2, false, 0) \/ (x, k, y) = (3, true, 2) \/ (x, k, y) = (3, true, 1).
Proof.
  intros E I1. destruct x as [|[|[|[|x]]]]; cbn in E; try (destruct x; discriminate); injection E as <-; cbn in I1; repeat (destruct I1 as [I1|I1]; [injection I1 as <- <-; auto|]); destruct I1.
Qed.
Lemma sound_ok : no_dangling sound /\ apart [] sound /\ live sound 3 /\ chains_end sound 3.
Proof.
  split; [|split; [|split]].
  - intros k y (x & h & E & I1). destruct (sound_pointers k x y h E I1) as [Q|[Q|[Q|Q]]]; injection Q as -> -> ->; eexists; reflexivity.
  - intros y (x & h & E & I1) (x' & h' & E' & I1').
    destruct (sound_pointers _ x y h E I1) as [Q|[Q|[Q|Q]]]; injection Q as -> H1; try discriminate. subst y.
    destruct (sound_pointers _ x' 0 h' E' I1') as [Q|[Q|[Q|Q]]]; discriminate.
  - eexists. reflexivity.
  - apply downhill. intros x y (h & k & E & I1). destruct (sound_pointers k x y h E I1) as [Q|[Q|[Q|Q]]]; injection Q as -> -> ->; lia.
Qed.
(* {"own":null,"all":[{"own":{}}]}: 2 is destroyed with its only owner; 1 is not, the list
   owns it; 4 is the moved pointer, 5 and 6 are new *)
Definition doc1 : str := lit "{" ++ mem (lit "own") (lit "null") ++ lit "," ++ mem (lit "all") (lit "[{" ++ mem (lit "own") (lit "{}") ++ lit "}]") ++ lit "}".
Example c87_example_destroys : exists r, parse_live [] 30 ropts_default lnode_env 0 3 sound doc1 =
    Ok ([lnode 5 None None []; lnode 6 None None []; None; lnode 8 None None [1; 5]; None; made 0 (Some 6); made 0 None], r) /\ rerr r = None.
Proof. eexists. split; vm_compute; reflexivity. Qed.
(* {"own":{"id":9},"all":[{},5]}: an item that fails is destroyed with all it owns, and what
   was read before it stays *)
Definition doc2 : str := lit "{" ++ mem (lit "own") (lit "{" ++ mem (lit "id") (lit "9") ++ lit "}") ++ lit "," ++ mem (lit "all") (lit "[{},{" ++ mem (lit "own") (lit "5") ++ lit "}]") ++ lit "}".
Example c87_example_error : exists r, parse_live [] 30 ropts_default lnode_env 0 3 sound doc2 =
    Ok ([lnode 5 None None []; lnode 6 None None []; lnode 9 (Some 1) (Some 0) []; lnode 8 (Some 2) None [1; 5]; None; made 0 None; None; None; None], r) /\ rerr r <> None.
Proof. eexists. split; [vm_compute; reflexivity|discriminate]. Qed.
(* the hypotheses of c87_nothing_left_over *)
Definition owning_env : env :=
  [DObj [mkF (lit "id") 1 false [] false; mkF (lit "own") 2 false [] false; mkF (lit "all") 3 false [] false]
        [(lit "id", VInt 0); (lit "own", VPtr None); (lit "all", VList [])];
   DInt true; DPtr true 0; DList 2].
Definition onode (z : Z) (own : option nat) (all : list nat) : option lval :=
  Some (LO [(lit "id", LV (VInt z)); (lit "own", LP true own); (lit "all", LL (map (fun a => LP true (Some a)) all))]).
Definition owning : lstore := [onode 5 None []; onode 6 (Some 0) []; onode 7 (Some 1) [0]].
Example c87_example_nothing_left_over : 
  (forall k i, nth_error owning_env k <> Some (DPtr false i)) /\
  (forall x, live owning x -> x = 2 \/ In x [] \/ pointer owning true x) /\
  exists r, parse_live [] 30 ropts_default owning_env 0 2 owning doc1 =
    Ok ([onode 5 None []; None; onode 7 None [0; 4]; None; onode 0 (Some 5) []; onode 0 None []], r) /\ rerr r = None.
Proof.
  split; [|split].
  - intros k i. destruct k as [|[|[|[|k]]]]; cbn; try discriminate. destruct k; discriminate.
  - intros x [h E]. destruct x as [|[|[|x]]]; [right; right; exists 1; eexists; split; [reflexivity|cbn; auto]|right; right; exists 2; eexists; split; [reflexivity|cbn; auto]|auto|].
    cbn in E. destruct x; discriminate.
  - eexists. split; vm_compute; reflexivity.
Qed.

(* ---- what does not hold ---- *)
(* A pointer back to the owner: reading through it can reset the pointer that leads to the
   object being read into, and reading goes on in the destroyed object.
   {"own":{"ref":{"own":null},"id":1}} *)
Definition doc_back : str := lit "{" ++ mem (lit "own") (lit "{" ++ mem (lit "ref") (lit "{" ++ mem (lit "own") (lit "null") ++ lit "}") ++ lit "," ++ mem (lit "id") (lit "1") ++ lit "}") ++ lit "}".
Theorem c87_back_pointer_refuted : exists m mh a s mh' r,
  no_dangling m /\ apart [] m /\ live m a /\ agree m mh /\
  parse_graph 30 ropts_default lnode_env 0 a mh s = Ok (mh', r) /\ rerr r = None /\
  parse_live [] 30 ropts_default lnode_env 0 a m s = UB.
Proof.
  exists [lnode 1 (Some 1) None []; lnode 2 None (Some 0) []], [hnode 1 (Some 1) None []; hnode 2 None (Some 0) []], 0, doc_back.
  do 2 eexists. split; [|split; [|split; [|split; [|split; [|split]]]]].
  - intros k y (x & h & E & I1). destruct x as [|[|x]]; cbn in E; try (destruct x; discriminate); injection E as <-; cbn in I1;
      (destruct I1 as [I1|[]]; injection I1 as <- <-; eexists; reflexivity).
  - intros y (x & h & E & I1) (x' & h' & E' & I1').
    destruct x as [|[|x]]; cbn in E; try (destruct x; discriminate); injection E as <-; cbn in I1; (destruct I1 as [I1|[]]; try discriminate I1). injection I1 as <-.
    destruct x' as [|[|x']]; cbn in E'; try (destruct x'; discriminate); injection E' as <-; cbn in I1'; (destruct I1' as [I1'|[]]; discriminate I1').
  - eexists. reflexivity.
  - split; [reflexivity|]. intros [|[|a]] h E; cbn in E; try (destruct a; discriminate); injection E as <-; reflexivity.
  - vm_compute. reflexivity.
  - reflexivity.
  - vm_compute. reflexivity.
Qed.
Print Assumptions c87_back_pointer_refuted.

(* A plain pointer beside the smart pointer that owns its object: the document resets the
   one, the other is left dangling, and reading goes through it.  {"own":null,"ref":{}} *)
Definition doc_beside : str := lit "{" ++ mem (lit "own") (lit "null") ++ lit "," ++ mem (lit "ref") (lit "{}") ++ lit "}".
Theorem c87_plain_beside_smart_refuted : exists m mh a s mh' r,
  no_dangling m /\ live m a /\ (forall x, chains_end m x) /\ agree m mh /\
  parse_graph 30 ropts_default lnode_env 0 a mh s = Ok (mh', r) /\ rerr r = None /\
  parse_live [] 30 ropts_default lnode_env 0 a m s = UB.
Proof.
  exists [lnode 2 None None []; lnode 1 (Some 0) (Some 0) []], [hnode 2 None None []; hnode 1 (Some 0) (Some 0) []], 1, doc_beside.
  assert (P : forall k x y h, nth_error [lnode 2 None None []; lnode 1 (Some 0) (Some 0) []] x = Some (Some h) -> In (k, y) (ptrs h) -> x = 1 /\ y = 0).
  { intros k x y h E I1. destruct x as [|[|x]]; cbn in E; try (destruct x; discriminate); injection E as <-; cbn in I1; [destruct I1|].
    destruct I1 as [I1|[I1|[]]]; injection I1 as <- <-; auto. }
  do 2 eexists. split; [|split; [|split; [|split; [|split; [|split]]]]].
  - intros k y (x & h & E & I1). destruct (P k x y h E I1) as [-> ->]. eexists. reflexivity.
  - eexists. reflexivity.
  - apply downhill. intros x y (h & k & E & I1). destruct (P k x y h E I1) as [-> ->]. lia.
  - split; [reflexivity|]. intros [|[|a]] h E; cbn in E; try (destruct a; discriminate); injection E as <-; reflexivity.
  - vm_compute. reflexivity.
  - reflexivity.
  - vm_compute. reflexivity.
Qed.
Print Assumptions c87_plain_beside_smart_refuted.

(* ... and without the second member, reading succeeds and leaves the pointer dangling *)
Theorem c87_left_dangling_refuted : exists m a s m' r,
  no_dangling m /\ live m a /\ (forall x, chains_end m x) /\
  parse_live [] 30 ropts_default lnode_env 0 a m s = Ok (m', r) /\ rerr r = None /\
  exists y, points m' a y /\ ~ live m' y.
Proof.
  exists [lnode 2 None None []; lnode 1 (Some 0) (Some 0) []], 1, (lit "{" ++ mem (lit "own") (lit "null") ++ lit "}").
  assert (P : forall k x y h, nth_error [lnode 2 None None []; lnode 1 (Some 0) (Some 0) []] x = Some (Some h) -> In (k, y) (ptrs h) -> x = 1 /\ y = 0).
  { intros k x y h E I1. destruct x as [|[|x]]; cbn in E; try (destruct x; discriminate); injection E as <-; cbn in I1; [destruct I1|].
    destruct I1 as [I1|[I1|[]]]; injection I1 as <- <-; auto. }
  do 2 eexists. split; [|split; [|split; [|split; [|split]]]].
  - intros k y (x & h & E & I1). destruct (P k x y h E I1) as [-> ->]. eexists. reflexivity.
  - eexists. reflexivity.
  - apply downhill. intros x y (h & k & E & I1). destruct (P k x y h E I1) as [-> ->]. lia.
  - vm_compute. reflexivity.
  - reflexivity.
  - exists 0. split; [eexists; exists false; split; [reflexivity|cbn; auto]|]. intros [h E]. discriminate E.
Qed.
Print Assumptions c87_left_dangling_refuted.

(* An object made for a plain pointer has no owner, and is left over when the object that
   holds the pointer is destroyed.  {"own":{"ref":{}},"own":null} *)
Theorem c87_plain_left_over_refuted : exists m a s m' r x,
  no_dangling m /\ apart [] m /\ live m a /\ (forall x, chains_end m x) /\ (forall x, live m x -> x = a) /\
  parse_live [] 30 ropts_default lnode_env 0 a m s = Ok (m', r) /\ rerr r = None /\
  live m' x /\ x <> a /\ forall k, ~ pointer m' k x.
Proof.
  exists [lnode 1 None None []], 0, (lit "{" ++ mem (lit "own") (lit "{" ++ mem (lit "ref") (lit "{}") ++ lit "}") ++ lit "," ++ mem (lit "own") (lit "null") ++ lit "}").
  assert (P : forall k x y h, nth_error [lnode 1 None None []] x = Some (Some h) -> In (k, y) (ptrs h) -> False).
  { intros k x y h E I1. destruct x as [|x]; cbn in E; try (destruct x; discriminate); injection E as <-; destruct I1. }
  do 2 eexists. exists 2. split; [|split; [|split; [|split; [|split; [|split; [|split; [|split; [|split]]]]]]]].
  - intros k y (x & h & E & I1). destruct (P k x y h E I1).
  - intros y (x & h & E & I1). destruct (P _ x y h E I1).
  - eexists. reflexivity.
  - apply downhill. intros x y (h & k & E & I1). destruct (P k x y h E I1).
  - intros [|x] [h E]; [reflexivity|]. destruct x; discriminate E.
  - vm_compute. reflexivity.
  - reflexivity.
  - eexists. reflexivity.
  - discriminate.
  - intros k (x & h & E & I1). destruct x as [|[|[|x]]]; cbn in E; try discriminate; try (destruct x; discriminate); injection E as <-; cbn in I1; repeat (destruct I1 as [I1|I1]; [discriminate I1|]); destruct I1.
Qed.
Print Assumptions c87_plain_left_over_refuted.

(* Objects that own each other are left over too: the pointer to the first is reset, each
   still has an owner.  {"own":null} *)
Theorem c87_cycle_left_over_refuted : exists m a s m' r,
  no_dangling m /\ live m a /\ (forall k i, nth_error owning_env k <> Some (DPtr false i)) /\
  (forall x, live m x -> reached m a x) /\
  parse_live [] 30 ropts_default owning_env 0 a m s = Ok (m', r) /\ rerr r = None /\
  exists x, live m' x /\ ~ reached m' a x.
Proof.
  exists [onode 1 (Some 1) []; onode 2 (Some 1) []], 0, (lit "{" ++ mem (lit "own") (lit "null") ++ lit "}").
  do 2 eexists. split; [|split; [|split; [|split; [|split; [|split]]]]].
  - intros k y (x & h & E & I1). destruct x as [|[|x]]; cbn in E; try (destruct x; discriminate); injection E as <-; cbn in I1;
      (destruct I1 as [I1|[]]; injection I1 as <- <-; eexists; reflexivity).
  - eexists. reflexivity.
  - apply c87_example_nothing_left_over.
  - intros [|[|x]] [h E]; [constructor| |destruct x; discriminate E]. eapply rd_step; [constructor|]. eexists. exists true. split; [reflexivity|cbn; auto].
  - vm_compute. reflexivity.
  - reflexivity.
  - exists 1. split; [eexists; reflexivity|]. intro R. assert (G : forall z, reached [onode 1 None []; onode 2 (Some 1) []] 0 z -> z = 0).
    { induction 1 as [|u v Ru IH (h & k & E & I1)]; auto. subst u. cbn in E. injection E as <-. destruct I1. }
    specialize (G 1 R). discriminate.
Qed.
Print Assumptions c87_cycle_left_over_refuted.
