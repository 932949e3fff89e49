(* PropCodec.v - property C79: one codec per type, also for recursive types. *)
From Coq Require Import Relations Sorting.Permutation Sorting.Sorted.
From Coq Require String. Import String.StringSyntax.
From Verif Require Import Base Dec ModelJson ModelJsonW ModelJsonT SpecJsonT SpecCodec ModelCodec ProofCodec1 ProofCodec2 ProofCodec3 ProofCodec4.

(* ---- one lookup ---- *)

Lemma filter_length_le_codec {A} (p : A -> bool) : forall l, length (filter p l) <= length l.
Proof. induction l as [|x l IH]; cbn; [lia|]. destruct (p x); cbn; lia. Qed.

Lemma lookup_good s W t st : world_ok W -> complete s W st -> good_result s W [] t st (lookup s W t st).
Proof.
  intros HW HC. apply complete_iff in HC. destruct HC as [Ho _]. unfold lookup. apply get_good; [exact HW|exact Ho|].
  unfold fresh_types. pose proof (filter_length_le_codec (fun u => match cfind u (t_cache st) with None => true | Some _ => false end) (seq 0 (length W))) as H.
  rewrite seq_length in H. lia.
Qed.

Lemma reach_cached s W st t a u : complete s W st -> cached st t a -> reach s W t u -> exists b, cached st u b.
Proof.
  intros HC Ht Hr. revert a Ht. apply clos_rt_rt1n in Hr.
  induction Hr as [t|t v u Hs _ IH]; intros a Ht; [now exists a|].
  destruct HC as (HC1 & HC2 & HC3 & HC). destruct (HC t a Ht) as (_ & c & _ & (d & k & Hd & Hk & _ & Hr)).
  destruct Hs as (d' & k' & Hd' & Hk' & Hs). rewrite Hd in Hd'. injection Hd' as <-.
  apply kind_choose in Hk, Hk'. rewrite Hk in Hk'. subst k'.
  destruct k; try contradiction.
  - destruct Hr as [(i & b & H1 & _ & H2) _]. rewrite Hs in H1. injection H1 as <-. eapply IH; eauto.
  - destruct Hr as (i & b & H1 & _ & H2). rewrite Hs in H1. injection H1 as <-. eapply IH; eauto.
  - destruct Hr as (i & b & H1 & _ & H2). rewrite Hs in H1. injection H1 as <-. eapply IH; eauto.
  - destruct Hr as (R1 & _). destruct Hs as (f & Hf & <-). destruct (R1 f Hf) as (b & _ & Hb). eapply IH; eauto.
Qed.

(* From a table in order, the lookup of a type all of whose types can have a codec ends,
   gives the type's codec, adds exactly the codecs of the types it reaches that were not
   there yet, changes none that was there, and leaves the table in order. *)
Theorem c79_lookup s W t st : world_ok W -> complete s W st -> (forall u, reach s W t u -> well s W u) ->
  exists st' a, lookup s W t st = (st', Got a) /\ complete s W st' /\ cached st' t a /\
    (forall u b, cached st u b -> cached st' u b) /\
    (forall b, b < length (t_objs st) -> nth_error (t_objs st') b = nth_error (t_objs st) b) /\
    (forall u, (exists b, cached st' u b) <-> (exists b, cached st u b) \/ reach s W t u).
Proof.
  intros HW HC Hwell. pose proof (lookup_good s W t st HW HC) as H. unfold good_result in H.
  destruct (lookup s W t st) as [st' x]. cbn [snd fst] in H. destruct x as [a| |]; [|destruct H as (u & H1 & H2); exfalso; auto|contradiction].
  destruct H as (H1 & H2 & H3 & H4). exists st', a. split; [reflexivity|].
  pose proof HC as HC0. apply complete_iff in HC0. destruct HC0 as [_ HCw].
  assert (HC' : complete s W st').
  { apply complete_iff. split; [exact H1|]. intros u b Hu. destruct (H4 u b Hu) as [Hu'|[_ Hu']]; [now apply (HCw u b)|exact Hu']. }
  split; [exact HC'|]. split; [exact H3|]. destruct H2 as [H2 H2'].
  split; [intros u b Hu; eapply grows_cached; eauto|]. split; [exact H2'|].
  intro u. split.
  - intros [b Hu]. destruct (H4 u b Hu) as [Hu'|[Hu' _]]; [left; now exists b|now right].
  - intros [[b Hu]|Hu]; [exists b; eapply grows_cached; eauto|]. eapply reach_cached; eauto.
Qed.

(* It always ends, and fails exactly when the type reaches one that cannot have a codec. *)
Theorem c79_fails_iff s W t st : world_ok W -> complete s W st ->
  (snd (lookup s W t st) = Failed <-> exists u, reach s W t u /\ ~ well s W u) /\
  snd (lookup s W t st) <> NoFuel.
Proof.
  intros HW HC. pose proof (lookup_good s W t st HW HC) as H. unfold good_result in H.
  destruct (lookup s W t st) as [st' x] eqn:E. cbn [snd fst] in *. destruct x as [a| |]; [|split; [tauto|discriminate]|contradiction].
  split; [|discriminate]. split; [discriminate|]. intros (u & Hu1 & Hu2). exfalso. apply Hu2.
  destruct H as (H1 & H2 & H3 & H4).
  pose proof HC as HC0. apply complete_iff in HC0. destruct HC0 as [_ HCw].
  assert (HC' : complete s W st').
  { apply complete_iff. split; [exact H1|]. intros v b Hv. destruct (H4 v b Hv) as [Hv'|[_ Hv']]; [now apply (HCw v b)|exact Hv']. }
  destruct (reach_cached s W st' t a u HC' H3 Hu1) as [b Hb].
  destruct HC' as (_ & _ & _ & HC'). now apply (HC' u b).
Qed.

(* A second lookup finds the same codec and changes nothing. *)
Theorem c79_again s W t a st : complete s W st -> cached st t a -> lookup s W t st = (st, Got a).
Proof.
  intros (H1 & _) Hc. unfold lookup. cbn [get]. destruct (cfind t (t_cache st)) as [b|] eqn:E.
  - apply cfind_In in E. now rewrite (nodup_fun _ _ _ _ H1 E Hc).
  - apply cfind_None in E. exfalso. apply E. eapply cached_dom; eauto.
Qed.

(* ---- any number of lookups, from any threads: the mutex puts them in a row ---- *)
Fixpoint lookups (s : side) (W : list desc) (ts : list nat) (st : table) : table * list got :=
  match ts with
  | [] => (st, [])
  | t :: ts' =>
    let '(st1, r) := lookup s W t st in
    let '(st2, rs) := lookups s W ts' st1 in (st2, r :: rs)
  end.
Definition no_codecs : table := mkT [] [].

Lemma empty_complete s W : complete s W no_codecs.
Proof. repeat split; try constructor; cbn; try lia; intros; contradiction. Qed.

Lemma lookups_from s W : world_ok W -> forall ts st, complete s W st ->
  (forall t u, In t ts -> reach s W t u -> well s W u) ->
  exists st' rs, lookups s W ts st = (st', rs) /\ complete s W st' /\
    Forall2 (fun t r => exists a, r = Got a /\ cached st' t a) ts rs /\
    (forall u b, cached st u b -> cached st' u b) /\
    (forall u, (exists b, cached st' u b) <-> (exists b, cached st u b) \/ exists t, In t ts /\ reach s W t u).
Proof.
  intros HW. induction ts as [|t ts IH]; intros st HC Hw; cbn [lookups].
  - exists st, []. split; [reflexivity|]. split; [exact HC|]. split; [constructor|]. split; [auto|].
    intro u. split; [now left|]. intros [H|(t & [] & _)]. exact H.
  - destruct (c79_lookup s W t st HW HC) as (st1 & a & E1 & C1 & H1 & M1 & _ & D1); [intros u Hu; apply (Hw t u); [now left|exact Hu]|].
    rewrite E1. destruct (IH st1 C1) as (st2 & rs & E2 & C2 & F2 & M2 & D2); [intros v u Hv; apply Hw; now right|].
    rewrite E2. exists st2, (Got a :: rs). split; [reflexivity|]. split; [exact C2|].
    split; [constructor; [exists a; split; [reflexivity|now apply M2]|exact F2]|].
    split; [intros u b Hu; apply M2, M1, Hu|]. intro u. rewrite D2, D1. split.
    + intros [[H|H]|(v & Hv & H)]; [now left|right; exists t; split; [now left|exact H]|right; exists v; split; [now right|exact H]].
    + intros [H|(v & [<-|Hv] & H)]; [left; now left|left; now right|right; now exists v].
Qed.

(* After any row of lookups every type reached has exactly one codec, each lookup of a
   type gave that codec, and there is one object per type. *)
Theorem c79_history s W ts : world_ok W -> (forall t u, In t ts -> reach s W t u -> well s W u) ->
  exists st rs, lookups s W ts no_codecs = (st, rs) /\ complete s W st /\
    Forall2 (fun t r => exists a, r = Got a /\ cached st t a) ts rs /\
    (forall u, (exists b, cached st u b) <-> exists t, In t ts /\ reach s W t u) /\
    (forall t a b, cached st t a -> cached st t b -> a = b) /\
    length (t_objs st) = length (t_cache st).
Proof.
  intros HW Hw. destruct (lookups_from s W HW ts no_codecs (empty_complete s W) Hw) as (st & rs & E & C & F & _ & D).
  exists st, rs. split; [exact E|]. split; [exact C|]. split; [exact F|]. split; [|split].
  - intro u. rewrite D. split; [intros [[b []]|H]; exact H|now right].
  - intros t a b. apply nodup_fun. apply C.
  - apply fine_len. destruct C as (A & B & C & _). split; [exact A|]. now split.
Qed.

(* ---- using the codecs ---- *)

(* no type reached has a custom codec *)
Definition no_custom (s : side) (W : list desc) (t : nat) : Prop :=
  forall u d, reach s W t u -> nth_error W u = Some d -> ~ codec_kind s d KCustom.

(* Whatever was looked up before, reading a text into a value of type t through the table is
   reading it by type (ModelJsonT, which C39-C41 speak about). *)
Theorem c79_reading cust W ts t n v r : world_ok W ->
  (forall x u, In x (ts ++ [t]) -> reach Reading W x u -> well Reading W u) -> no_custom Reading W t ->
  exists st rs st' a, lookups Reading W ts no_codecs = (st, rs) /\ lookup Reading W t st = (st', Got a) /\
    parse_c cust n W st' a t v r = parse_t n (env_of Reading W) t v r.
Proof.
  intros HW Hw Hn.
  destruct (lookups_from Reading W HW ts no_codecs (empty_complete _ W)) as (st & rs & E & C & _).
  { intros x u Hx. apply Hw. apply in_app_iff. now left. }
  destruct (c79_lookup Reading W t st HW C) as (st' & a & E' & C' & H' & _).
  { intros u Hu. apply (Hw t u); [|exact Hu]. apply in_app_iff. right. now left. }
  exists st, rs, st', a. split; [exact E|]. split; [exact E'|]. now apply parse_bridge.
Qed.

Theorem c79_printing cust W ts t n v w : world_ok W ->
  (forall x u, In x (ts ++ [t]) -> reach Printing W x u -> well Printing W u) -> no_custom Printing W t ->
  exists st rs st' a, lookups Printing W ts no_codecs = (st, rs) /\ lookup Printing W t st = (st', Got a) /\
    print_c cust n W st' a t v w = print_t n (env_of Printing W) t v w.
Proof.
  intros HW Hw Hn.
  destruct (lookups_from Printing W HW ts no_codecs (empty_complete _ W)) as (st & rs & E & C & _).
  { intros x u Hx. apply Hw. apply in_app_iff. now left. }
  destruct (c79_lookup Printing W t st HW C) as (st' & a & E' & C' & H' & _).
  { intros u Hu. apply (Hw t u); [|exact Hu]. apply in_app_iff. right. now left. }
  exists st, rs, st', a. split; [exact E|]. split; [exact E'|]. now apply print_bridge.
Qed.

(* A type with a custom codec is handed to its own function. *)
Theorem c79_custom cust custw W st t a d n v r w : nth_error W t = Some d -> cached st t a ->
  (complete Reading W st -> codec_kind Reading d KCustom ->
     parse_c cust (S n) W st a t v r = bind (cust (d_parser d) t v r) (fun '(x, r1) => Ok (x, false, r1))) /\
  (complete Printing W st -> codec_kind Printing d KCustom ->
     print_c custw (S n) W st a t v w = custw (d_printer d) t v w).
Proof.
  intros Hd Hc. split; intros (_ & _ & _ & HC) Hk; destruct (HC t a Hc) as (_ & c & Ho & (d' & k & Hd' & Hk' & Hck & Hr));
    rewrite Hd in Hd'; injection Hd' as <-; apply kind_choose in Hk, Hk'; rewrite Hk in Hk'; subst k.
  - cbn [parse_c]. rewrite Ho, Hck, Hr. reflexivity.
  - cbn [print_c]. rewrite Ho, Hck, Hr. reflexivity.
Qed.

(* False of the code in the build where an error is an exception: the entry made before
   init stays, so the lookup after a failed one succeeds with a codec that was never
   finished.  Here a pointer to a list that does not name its value type: the first lookup
   is refused, the second is not, and reading through what it gives is undefined. *)
Definition bad_list : desc := mkD [lit "list"] None None [] [] [] false [] false [].
Definition bad_ptr : desc := mkD [] (Some 1) None [] [] [] false [] false [].
Theorem c79_after_failure_refuted cust :
  exists W t st st' a, world_ok W /\ lookup Reading W t no_codecs = (st, Failed) /\
    lookup Reading W t st = (st', Got a) /\
    forall n v r, parse_c cust (S n) W st' a t v r = UB.
Proof.
  exists [bad_ptr; bad_list], 0. eexists _, _, 0.
  split; [intros d [<-|[<-|[]]]; constructor|]. split; [reflexivity|]. split; [reflexivity|].
  intros n v r. reflexivity.
Qed.

(* ... and two fields with one name: refused the first time, then read without the second
   field. *)
Definition dup_obj : desc :=
  mkD [] None None [] [] [] false [mkF (lit "a") 1 false [] false; mkF (lit "b") 1 false (lit "a") false] false [].
Definition an_int : desc := mkD [lit "integer"] None None [] [] [] false [] true [].
Theorem c79_duplicate_refuted :
  exists W t st st' a c, world_ok W /\ ~ well Reading W t /\ lookup Reading W t no_codecs = (st, Failed) /\
    lookup Reading W t st = (st', Got a) /\ nth_error (t_objs st') a = Some c /\
    c_keys c = [(lit "a", lit "a")].
Proof.
  exists [dup_obj; an_int], 0. eexists _, _, 0, _.
  split. { intros d [<-|[<-|[]]]; repeat constructor; cbn; intuition discriminate. }
  split.
  { intros (d & k & Hd & Hk & Hw). injection Hd as <-. apply kind_choose in Hk. cbn in Hk. subst k. cbn in Hw.
    inversion Hw; subst. apply H1. now left. }
  split; [reflexivity|]. split; [reflexivity|]. split; reflexivity.
Qed.

(* ---- a recursive type: struct Node { int64_t value; Node* next; vector<Node> kids; } ---- *)
Definition node_world : list desc :=
  [ mkD [] None None [] [] [] false
      [mkF (lit "kids") 3 false [] false; mkF (lit "next") 2 false (lit "then") true; mkF (lit "value") 1 false [] false] false
      [(lit "kids", VList []); (lit "next", VPtr None); (lit "value", VInt 0)];
    an_int;
    mkD [lit "smartPtr"] (Some 0) None [] [] [] false [] false [];
    mkD [lit "list"] None (Some 0) [] [] [] false [] false [] ].

Lemma node_closed s : forall u, reach s node_world 0 u -> u < 4.
Proof.
  assert (Hc : forall u, u < 4 -> forall v, refers s node_world u v -> v < 4).
  { intros u Hu v (d & k & Hd & Hk & H). apply kind_choose in Hk. revert Hd.
    destruct u as [|[|[|[|u]]]]; cbn; intro Hd; try injection Hd as <-; try lia; destruct s; cbn in Hk; subst k; cbn in H; try contradiction;
      try (injection H as <-; lia);
      destruct H as (f & Hf & <-); repeat (destruct Hf as [<-|Hf]; [cbn; lia|]); contradiction. }
  intros u Hr. apply clos_rt_rtn1 in Hr. induction Hr as [|y z H _ IH]; [lia|]. eapply Hc; eauto.
Qed.

Lemma node_plain s : no_custom s node_world 0.
Proof.
  intros u d Hr Hd Hk. pose proof (node_closed s u Hr) as Hu. apply kind_choose in Hk.
  destruct u as [|[|[|[|u]]]]; [| | | |lia]; injection Hd as <-; destruct s; vm_compute in Hk; discriminate.
Qed.

Lemma node_well s : forall u, reach s node_world 0 u -> well s node_world u.
Proof.
  intros u Hr. pose proof (node_closed s u Hr) as Hu.
  assert (Hk : forall d k, nth_error node_world u = Some d -> choose s d = k -> match k with
    | KMap | KList => exists u, d_value d = Some u
    | KCustom => In (custom s d) (d_funs d)
    | KVoid => s = Reading
    | KObj => match s with
              | Reading => NoDup (map json_name (shown d))
              | Printing => NoDup (map f_key (shown d))
              end
    | _ => True
    end -> well s node_world u).
  { intros d k H1 H2 H3. exists d, k. split; [exact H1|]. split; [now apply kind_choose|exact H3]. }
  destruct u as [|[|[|[|u]]]]; [| | | |lia].
  - apply (Hk _ KObj eq_refl); [destruct s; reflexivity|]. destruct s; repeat constructor; cbn; intuition discriminate.
  - apply (Hk _ KInt eq_refl); [destruct s; reflexivity|]. exact Logic.I.
  - apply (Hk _ KPtr eq_refl); [destruct s; reflexivity|]. exact Logic.I.
  - apply (Hk _ KList eq_refl); [destruct s; reflexivity|]. now exists 0.
Qed.

Example c79_nontrivial_reading :
  world_ok node_world /\ (forall u, reach Reading node_world 0 u -> well Reading node_world u) /\
  (exists u, refers Reading node_world 0 u /\ refers Reading node_world u 0) /\
  exists st, lookup Reading node_world 0 no_codecs = (st, Got 0) /\ length (t_objs st) = 4 /\
    (forall v, parse_c (fun _ _ _ _ => UB) 60 node_world st 0 0 (VObj [(lit "kids", VList []); (lit "next", VPtr None); (lit "value", VInt 0)])
       (reader_init ropts_default (lit "{""value"":7,""kids"":[{""value"":8}],""then"":{""value"":9}} ")) = v ->
     exists o r, v = Ok (VObj o, false, r) /\ afind (lit "value") o = Some (VInt 7)).
Proof.
  split. { intros d [<-|[<-|[<-|[<-|[]]]]]; repeat constructor; cbn; intuition discriminate. }
  split; [apply node_well|]. split.
  { exists 2. split.
    - eexists _, KObj. split; [reflexivity|]. split; [now apply kind_choose|]. exists (mkF (lit "next") 2 false (lit "then") true).
      split; [right; left; reflexivity|reflexivity].
    - eexists _, KPtr. split; [reflexivity|]. split; [now apply kind_choose|]. reflexivity. }
  eexists. split; [vm_compute; reflexivity|]. split; [reflexivity|].
  intros v <-. vm_compute. eexists _, _. split; reflexivity.
Qed.

Lemma node_ok : world_ok node_world.
Proof. intros d [<-|[<-|[<-|[<-|[]]]]]; repeat constructor; cbn; intuition discriminate. Qed.

(* the same node printed, after other lookups: through the codecs and by type *)
Example c79_nontrivial_printing :
  world_ok node_world /\ (forall x u, In x ([3; 0; 3] ++ [0]) -> reach Printing node_world x u -> well Printing node_world u) /\
  no_custom Printing node_world 0 /\
  exists st rs st' a w, lookups Printing node_world [3; 0; 3] no_codecs = (st, rs) /\
    lookup Printing node_world 0 st = (st', Got a) /\
    print_c (fun _ _ _ _ => UB) 60 node_world st' a 0
      (VObj [(lit "kids", VList []); (lit "next", VPtr None); (lit "value", VInt 12)]) (writer_init wopts_default) = Ok w /\
    wout w = lit "{""kids"":[],""value"":12}".
Proof.
  assert (H30 : forall u, reach Printing node_world 3 u -> reach Printing node_world 0 u).
  { intros u Hu. eapply reach_step; [|exact Hu]. eexists _, KObj. split; [reflexivity|]. split; [now apply kind_choose|].
    exists (mkF (lit "kids") 3 false [] false). split; [left; reflexivity|reflexivity]. }
  split; [apply node_ok|]. split.
  { intros x u [<-|[<-|[<-|[<-|[]]]]] Hu; apply node_well; auto. }
  split; [apply node_plain|].
  eexists _, _, _, _, _. split; [vm_compute; reflexivity|]. split; [vm_compute; reflexivity|]. split; vm_compute; reflexivity.
Qed.

(* a type with a custom parser and printer *)
Definition custom_type : desc := mkD [] None None (lit "load") (lit "save") [lit "load"; lit "save"] false [] false [].
Example c79_nontrivial_custom s : exists st a, lookup s [custom_type] 0 no_codecs = (st, Got a) /\
  codec_kind s custom_type KCustom /\ complete s [custom_type] st /\ cached st 0 a.
Proof.
  assert (HW : world_ok [custom_type]) by (intros d [<-|[]]; constructor).
  assert (Hk : codec_kind s custom_type KCustom) by (apply kind_choose; destruct s; reflexivity).
  destruct (c79_lookup s [custom_type] 0 no_codecs HW (empty_complete s _)) as (st & a & E & C & H & _).
  - intros u Hu. apply clos_rt_rt1n in Hu. destruct Hu as [|v u Hs _].
    + exists custom_type, KCustom. split; [reflexivity|]. split; [exact Hk|]. destruct s; cbn; auto.
    + exfalso. destruct Hs as (d & k & Hd & Hk' & Hs). injection Hd as <-. apply kind_choose in Hk, Hk'. rewrite Hk in Hk'. subst k. exact Hs.
  - exists st, a. auto.
Qed.
