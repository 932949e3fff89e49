(* ProofPlumb3.v - the bodies of the library's own types. *)
From Coq Require String.
Import String.StringSyntax.
From Coq Require Import Permutation Relations.
From Verif Require Import Base ModelCore SpecCore ProofCore ProofMatch ProofCore2 ModelPlumb SpecPlumb ProofPlumb ModelValue SpecValue ProofValue ProofPlumb2.
Local Open Scope outcome_scope.

Lemma body_sub id T k b ext : sub_body (plumbing id T k b ++ ext) (plumbing id T all_caps b ++ ext).
Proof. apply sub_body_app; [apply plumbing_sub|apply sub_body_refl]. Qed.

Lemma FOP_app_intro {A} (R : A -> A -> Prop) l m : ForallOrdPairs R l -> ForallOrdPairs R m ->
  (forall x y, In x l -> In y m -> R x y) -> ForallOrdPairs R (l ++ m).
Proof.
  induction l as [|a l IH]; cbn; intros Fl Fm D; auto. inversion Fl as [|? ? F1 F2]; subst.
  constructor.
  - apply Forall_app. split; auto. apply Forall_forall. intros y Iy. apply D; auto.
  - apply IH; auto.
Qed.

(* what an extension of the plumbing must satisfy for the body to load *)
Record extension_ok (H : heap) (T : tptr) (id : str) (rs ext : list reg) : Prop := {
  ex_sigs : forall n ret args code, In (RFn n ret args code) ext -> arg_valid H ret /\ Forall (arg_valid H) args;
  ex_ptr : forall k p, In (RPointer k p) ext -> may_point H T p;
  ex_traits : forall n, In (RTrait n) ext -> n <> lit "pointer" /\ n <> lit "sizeof";
  ex_assign : forall ret args code, ~ In (RFn (lit "operator=") ret args code) ext;
  ex_conv : forall ret args code, ~ In (RFn (converterName id) ret args code) ext;
  ex_ctors : forall ret args code, In (RFn id ret args code) ext ->
     exists p, args = [p] /\ alien H T rs (a_type p);
  ex_pairs : ForallOrdPairs (before H T rs) ext }.

Lemma extension_loadable H T id k b rs ext : rs = plumbing id T all_caps b ++ ext ->
  wf_heap H -> fresh H T id -> id <> lit "operator=" -> extension_ok H T id rs ext ->
  loadable H T id (plumbing id T k b ++ ext).
Proof.
  intros Ers W F N [X1 X2 X3 X4 X5 X6 X7]. pose proof (tget_valid _ _ _ F) as V.
  apply (loadable_sub _ _ _ _ _ (body_sub id T k b ext)). rewrite <- Ers. constructor; auto.
  - intros n ret args code I. rewrite Ers in I. apply in_app_or in I as [I|I]; [|eauto]. eapply plumbing_sigs; eauto.
  - intros k0 p I. rewrite Ers in I. apply in_app_or in I as [I|I]; [|eauto]. now apply plumbing_no_pointer in I.
  - intro I. rewrite Ers in I. apply in_app_or in I as [I|I].
    + apply plumbing_traits in I. discriminate.
    + now apply X3 in I as [].
  - rewrite Ers at 2. apply FOP_app_intro; auto.
    + now apply plumbing_all_pairs.
    + intros x y Ix Iy. destruct x as [a|n ret old code|k0 p], y as [c|m ret' new code'|k' p']; cbn; auto.
      * apply plumbing_traits in Ix as ->. apply X3 in Iy as []. congruence.
      * intros <-. pose proof Ix as Ix'. apply plumbing_names in Ix' as [->| ->].
        -- destruct (X6 _ _ _ Iy) as (q & -> & AL). cbn -[lit] in Ix.
           repeat destruct Ix as [Ix|Ix]; try discriminate; try contradiction; injection Ix; intros; subst; try congruence.
           ++ left. cbn. lia.
           ++ right. exists 0. do 2 eexists. split; [reflexivity|]. split; [reflexivity|]. right. auto.
           ++ right. exists 0. do 2 eexists. split; [reflexivity|]. split; [reflexivity|]. right. auto.
        -- now apply X4 in Iy.
      * exfalso. eapply plumbing_no_pointer; eauto.
Qed.

Lemma fns_of_app n l m : fns_of n (l ++ m) = fns_of n l ++ fns_of n m.
Proof. apply flat_map_app. Qed.
Lemma fns_of_none n ext : (forall ret args code, ~ In (RFn n ret args code) ext) -> fns_of n ext = [].
Proof.
  intro N. destruct (fns_of n ext) as [|f l] eqn:E; auto. exfalso.
  assert (I : In f (fns_of n ext)) by (rewrite E; now left). apply In_fns_of in I as (ret & args & code & I & _).
  eapply N; eauto.
Qed.

Lemma extension_plumbed H H' T id k b rs ext : 
  extension_ok H T id rs ext -> carries H' T id (plumbing id T k b ++ ext) ->
  (forall ret args code, ~ In (RFn id ret args code) ext) ->
  plumbed_body H' T id k b (plumbing id T k b ++ ext) [].
Proof.
  intros [X1 X2 X3 X4 X5 X6 X7] C NC. constructor; auto.
  - rewrite fns_of_app. f_equal. now apply fns_of_none.
  - rewrite fns_of_app, (fns_of_none (lit "operator=") ext) by auto. apply app_nil_r.
  - intros ret args code I. apply in_app_or in I as [I|I]; [|now apply X5 in I].
    apply plumbing_names in I as [I|I]; [now apply converterName_neq_id in I|now apply converterName_neq_assign in I].
  - constructor.
Qed.

Ltac in_cases I := repeat destruct I as [I|I]; try discriminate I; try contradiction.
Ltac vld := repeat match goal with |- _ /\ _ => split | |- Forall _ (_ :: _) => constructor | |- Forall _ [] => constructor end;
  try assumption.
Ltac fop' := repeat (apply FOP_cons; [repeat apply Forall_cons; try apply Forall_nil; pair_tac|]); apply FOP_nil.

Definition pointer_ext (T P B : tptr) (b : nat) : list reg :=
  [ RTrait (lit "primitive"); RPointer (lit "*") P;
    RFn (lit "operator bool()") (Arg B Copy false) [Arg T Copy false] (b + 5);
    RFn (lit "operator*") (Arg P LValue false) [Arg T LValue false] (b + 6);
    RFn (lit "operator*") (Arg P LValue true) [Arg T LValue true] (b + 7) ].

Lemma snoc_inv (a : str) x c y : a ++ [x] = c ++ [y] -> a = c /\ x = y.
Proof. apply app_inj_tail. Qed.
Lemma star_not_bool pid : converterName (pid ++ lit "*") <> lit "operator bool()".
Proof.
  intro E. unfold converterName in E. rewrite <- !app_assoc in E. cbn in E.
  repeat (injection E as E). 
  assert (X : forall x, pid = x :: tl pid -> x = hd 0%N pid) by (intros x ->; reflexivity).
  destruct pid as [|a [|a1 [|a2 [|a3 [|a4 pid]]]]]; cbn in E; try discriminate E.
  apply (f_equal (@length _)) in E. cbn in E. rewrite app_length in E. cbn in E. lia.
Qed.
Lemma star_not_op pid : pid <> lit "operator" -> pid ++ lit "*" <> lit "operator=" /\
  pid ++ lit "*" <> lit "operator bool()" /\ pid ++ lit "*" <> lit "operator*".
Proof.
  intro N. change (lit "*") with [42%N].
  change (lit "operator=") with (lit "operator" ++ [61%N]).
  change (lit "operator bool()") with (lit "operator bool(" ++ [41%N]).
  change (lit "operator*") with (lit "operator" ++ [42%N]).
  repeat split; intro E; apply snoc_inv in E as [E1 E2]; try discriminate E2. contradiction.
Qed.

Lemma pointer_extension H T P B pid b rs : pid <> lit "operator" -> valid H T -> valid H B -> may_point H T P ->
  extension_ok H T (pid ++ lit "*") rs (pointer_ext T P B b) /\
  (forall ret args code, ~ In (RFn (pid ++ lit "*") ret args code) (pointer_ext T P B b)).
Proof.
  intros N VT VB MP. pose proof MP as [VP _]. destruct (star_not_op pid N) as (N1 & N2 & N3).
  pose proof (star_not_bool pid) as N4.
  assert (NC : forall ret args code, ~ In (RFn (pid ++ lit "*") ret args code) (pointer_ext T P B b)).
  { intros ret args code I. cbn -[lit] in I. in_cases I; injection I; intros; congruence. }
  split; [|exact NC]. constructor.
  - intros n ret args code I. cbn -[lit] in I. in_cases I; injection I; intros; subst; vld.
  - intros k p I. cbn -[lit] in I. in_cases I. injection I as <- <-. auto.
  - intros n I. cbn -[lit] in I. in_cases I. injection I as <-. split; discriminate.
  - intros ret args code I. cbn -[lit] in I. in_cases I; injection I; intros; discriminate.
  - intros ret args code I. cbn -[lit converterName] in I. in_cases I; injection I; intros; try congruence.
  - intros ret args code I. exfalso. eapply NC; eauto.
  - unfold pointer_ext. fop'.
Qed.

Ltac ext_tac := constructor;
  [ intros n0 ret0 args0 code0 I0; cbn -[lit] in I0; in_cases I0; injection I0; intros; subst; vld
  | intros k0 p0 I0; cbn -[lit] in I0; in_cases I0; injection I0 as <- <-; auto
  | intros n0 I0; cbn -[lit] in I0; in_cases I0; injection I0 as <-; split; discriminate
  | intros ret0 args0 code0 I0; cbn -[lit] in I0; in_cases I0; injection I0; intros; discriminate
  | intros ret0 args0 code0 I0; cbn -[lit converterName] in I0; in_cases I0; injection I0; intros; congruence
  | idtac
  | fop' ].

Definition number_ext (T PT R : tptr) (n : numkind) (b : nat) : list reg :=
  [ alloc PT (b + 5);
    RTrait (lit "min"); RTrait (lit "max"); RTrait (lit "primitive");
    RFn (lit "operator+") (Arg R Copy false) [Arg T LValue true; Arg T Copy false] (b + 6) ]
  ++ match n with
     | NBool => [RTrait (lit "bool")]
     | NSigned => [RTrait (lit "integer"); RTrait (lit "signed")]
     | NUnsigned => [RTrait (lit "integer"); RTrait (lit "unsigned")]
     | NFloat => [RTrait (lit "float")]
     end.
Lemma number_extension H T PT R id n b rs : id <> lit "new" -> id <> lit "operator+" ->
  valid H T -> valid H PT -> valid H R ->
  extension_ok H T id rs (number_ext T PT R n b) /\
  (forall ret args code, ~ In (RFn id ret args code) (number_ext T PT R n b)).
Proof.
  intros N1 N2 VT VP VR.
  assert (NC : forall ret args code, ~ In (RFn id ret args code) (number_ext T PT R n b)).
  { intros ret args code I. unfold number_ext, alloc in I. destruct n; cbn -[lit] in I; in_cases I; injection I; intros; congruence. }
  split; [|exact NC]. unfold alloc in *.
  assert (D1 : converterName id <> lit "new") by discriminate.
  assert (D2 : converterName id <> lit "operator+") by discriminate.
  destruct n; cbn -[lit]; unfold alloc; ext_tac; intros ret args code I; exfalso; eapply NC; exact I.
Qed.

Definition string_ext (T PT Z : tptr) (b : nat) : list reg :=
  [ alloc PT (b + 5); RTrait (lit "string"); RFn (lit "size") (Arg Z Copy false) [Arg T LValue true] (b + 6) ].
Lemma string_extension H T PT Z id b rs : id <> lit "new" -> id <> lit "size" ->
  valid H T -> valid H PT -> valid H Z ->
  extension_ok H T id rs (string_ext T PT Z b) /\
  (forall ret args code, ~ In (RFn id ret args code) (string_ext T PT Z b)).
Proof.
  intros N1 N2 VT VP VR.
  assert (NC : forall ret args code, ~ In (RFn id ret args code) (string_ext T PT Z b)).
  { intros ret args code I. unfold string_ext, alloc in I. cbn -[lit] in I; in_cases I; injection I; intros; congruence. }
  split; [|exact NC].
  assert (D1 : converterName id <> lit "new") by discriminate.
  assert (D2 : converterName id <> lit "size") by discriminate.
  unfold string_ext, alloc; ext_tac; intros ret args code I; exfalso; eapply NC; exact I.
Qed.

Definition vector_ext (T V Z vd : tptr) (b : nat) : list reg :=
  [ RTrait (lit "list"); RTrait (lit "valueType");
    RFn (lit "size") (Arg Z Copy false) [Arg T LValue true] (b + 5);
    RFn (lit "clear") (Arg vd Copy false) [Arg T LValue false] (b + 6);
    RFn (lit "resize") (Arg vd Copy false) [Arg T LValue false; Arg Z Copy false] (b + 7);
    RFn (lit "push_back") (Arg vd Copy false) [Arg T LValue false; Arg V LValue true] (b + 8);
    RFn (lit "push_back") (Arg vd Copy false) [Arg T LValue false; Arg V RValue false] (b + 9);
    RFn (lit "operator[]") (Arg V LValue false) [Arg T LValue false; Arg Z Copy false] (b + 10);
    RFn (lit "at") (Arg V LValue true) [Arg T LValue true; Arg Z Copy false] (b + 11) ].
Lemma vector_extension H T V Z vid b rs : 
  valid H T -> valid H V -> valid H Z -> valid H (h_void H) ->
  extension_ok H T (lit "std::vector<" ++ vid ++ lit ">") rs (vector_ext T V Z (h_void H) b) /\
  (forall ret args code, ~ In (RFn (lit "std::vector<" ++ vid ++ lit ">") ret args code) (vector_ext T V Z (h_void H) b)).
Proof.
  intros VT VV VZ VD. set (id := lit "std::vector<" ++ vid ++ lit ">").
  assert (NC : forall ret args code, ~ In (RFn id ret args code) (vector_ext T V Z (h_void H) b)).
  { intros ret args code I. cbn -[lit id] in I; in_cases I; injection I; intros; discriminate. }
  split; [|exact NC].
  assert (D : converterName id <> lit "operator[]") by discriminate.
  assert (D1 : forall c x, converterName id <> c :: x \/ c = 111%N) by (intros c x; destruct (N.eq_dec c 111); [now right|left; intro E; injection E; congruence]).
  unfold vector_ext; constructor;
  [ intros n0 ret0 args0 code0 I0; cbn -[lit] in I0; in_cases I0; injection I0; intros; subst; vld
  | intros k0 p0 I0; cbn -[lit] in I0; in_cases I0
  | intros n0 I0; cbn -[lit] in I0; in_cases I0; injection I0 as <-; split; discriminate
  | intros ret0 args0 code0 I0; cbn -[lit] in I0; in_cases I0; injection I0; intros; discriminate
  | intros ret0 args0 code0 I0; cbn -[lit converterName id] in I0; in_cases I0; injection I0; intros; discriminate
  | intros ret args code I; exfalso; eapply NC; exact I
  | fop' ].
Qed.

Definition map_ext (T K V KV Z : tptr) (b : nat) : list reg :=
  [ RTrait (lit "map"); RTrait (lit "keyType"); RTrait (lit "valueType");
    RFn (lit "size") (Arg Z Copy false) [Arg T LValue true] (b + 5);
    RFn (lit "count") (Arg Z Copy false) [Arg T LValue true; Arg K LValue true] (b + 6);
    RFn (lit "operator[]") (Arg V LValue false) [Arg T LValue false; Arg K LValue true] (b + 7);
    RFn (lit "at") (Arg V LValue true) [Arg T LValue true; Arg K LValue true] (b + 8);
    RFn (lit "keys") (Arg KV Copy false) [Arg T LValue true] (b + 9) ].
Lemma map_extension H T K V KV Z prefix kid vid b rs : prefix = lit "std::map<" \/ prefix = lit "std::unordered_map<" ->
  valid H T -> valid H K -> valid H V -> valid H KV -> valid H Z ->
  let id := prefix ++ kid ++ lit "," ++ vid ++ lit ">" in
  extension_ok H T id rs (map_ext T K V KV Z b) /\
  (forall ret args code, ~ In (RFn id ret args code) (map_ext T K V KV Z b)).
Proof.
  intros P VT VK VV VKV VZ id.
  assert (NC : forall ret args code, ~ In (RFn id ret args code) (map_ext T K V KV Z b)).
  { intros ret args code I. subst id. destruct P as [-> | ->]; cbn -[lit] in I; in_cases I; injection I; intros; discriminate. }
  split; [|exact NC].
  unfold map_ext; constructor;
  [ intros n0 ret0 args0 code0 I0; cbn -[lit] in I0; in_cases I0; injection I0; intros; subst; vld
  | intros k0 p0 I0; cbn -[lit] in I0; in_cases I0
  | intros n0 I0; cbn -[lit] in I0; in_cases I0; injection I0 as <-; split; discriminate
  | intros ret0 args0 code0 I0; cbn -[lit] in I0; in_cases I0; injection I0; intros; discriminate
  | intros ret0 args0 code0 I0; cbn -[lit converterName id] in I0; in_cases I0; injection I0; intros; discriminate
  | intros ret args code I; exfalso; eapply NC; exact I
  | fop' ].
Qed.

(* the same, for a body that first makes T a pointer *)
Lemma pointer_first_loadable H T id k b rs ext kind P :
  rs = RPointer kind P :: plumbing id T all_caps b ++ ext ->
  wf_heap H -> fresh H T id -> id <> lit "operator=" -> may_point H T P ->
  (forall k' p', ~ In (RPointer k' p') ext) -> extension_ok H T id rs ext ->
  loadable H T id (RPointer kind P :: plumbing id T k b ++ ext).
Proof.
  intros Ers W F N MP NP EX. pose proof (tget_valid _ _ _ F) as V. pose proof EX as [X1 X2 X3 X4 X5 X6 X7].
  apply (loadable_sub _ _ _ _ rs). { rewrite Ers. constructor. apply body_sub. }
  assert (XI : forall r, In r rs -> r = RPointer kind P \/ In r (plumbing id T all_caps b) \/ In r ext).
  { intros r I. rewrite Ers in I. destruct I as [<-|I]; auto. apply in_app_or in I. tauto. }
  constructor; auto.
  - intros n ret args code I. apply XI in I as [I|[I|I]]; [discriminate| |eauto]. eapply plumbing_sigs; eauto.
  - intros k0 p I. apply XI in I as [I|[I|I]]; [congruence| |eauto]. now apply plumbing_no_pointer in I.
  - intro I. apply XI in I as [I|[I|I]]; [discriminate| |].
    + apply plumbing_traits in I. discriminate.
    + now apply X3 in I as [].
  - rewrite Ers at 2. constructor.
    + apply Forall_forall. intros r I. destruct r; cbn; auto.
      apply in_app_or in I as [I|I]; [eapply plumbing_no_pointer; eauto|eapply NP; eauto].
    + apply FOP_app_intro; auto.
      * now apply plumbing_all_pairs.
      * intros x y Ix Iy. destruct x as [a|n ret old code|k0 p], y as [c|m ret' new code'|k' p']; cbn; auto.
        -- apply plumbing_traits in Ix as ->. apply X3 in Iy as []. congruence.
        -- intros <-. pose proof Ix as Ix'. apply plumbing_names in Ix' as [->| ->].
           ++ destruct (X6 _ _ _ Iy) as (q & -> & AL). cbn -[lit] in Ix.
              repeat destruct Ix as [Ix|Ix]; try discriminate; try contradiction; injection Ix; intros; subst; try congruence.
              ** left. cbn. lia.
              ** right. exists 0. do 2 eexists. split; [reflexivity|]. split; [reflexivity|]. right. auto.
              ** right. exists 0. do 2 eexists. split; [reflexivity|]. split; [reflexivity|]. right. auto.
           ++ now apply X4 in Iy.
        -- exfalso. eapply plumbing_no_pointer; eauto.
Qed.

Definition smart_ext (id : str) (T P PP B : tptr) (b : nat) (more : list reg) : list reg :=
  [ RFn id (Arg T Copy false) [Arg PP Copy false] (b + 5);
    RTrait (lit "smartPtr");
    RFn (lit "get") (Arg PP Copy false) [Arg T LValue true] (b + 6);
    RFn (lit "operator bool()") (Arg B Copy false) [Arg T LValue true] (b + 7);
    RFn (lit "operator*") (Arg P LValue false) [Arg T LValue true] (b + 8);
    RFn (lit "operator==") (Arg B Copy false) [Arg T LValue true; Arg T LValue true] (b + 9) ] ++ more.
Definition shared_more (T PP vd : tptr) (b : nat) : list reg :=
  [ RFn (lit "reset") (Arg vd Copy false) [Arg T LValue false] (b + 10);
    RFn (lit "reset") (Arg vd Copy false) [Arg T LValue false; Arg PP Copy false] (b + 11) ].
Definition unique_more (T PP vd : tptr) (b : nat) : list reg :=
  [ RFn (lit "release") (Arg PP Copy false) [Arg T LValue false] (b + 10);
    RFn (lit "reset") (Arg vd Copy false) [Arg T LValue false; Arg PP Copy false] (b + 11);
    RFn (lit "reset") (Arg vd Copy false) [Arg T LValue false] (b + 12) ].

(* shared = true: std::shared_ptr, false: std::unique_ptr *)
Definition smart_kind (shared : bool) : str := if shared then lit "std::shared_ptr" else lit "std::unique_ptr".
Definition smart_id (shared : bool) (pid : str) : str := smart_kind shared ++ lit "<" ++ pid ++ lit ">".
Definition smart_more (shared : bool) := if shared then shared_more else unique_more.

Lemma smart_extension H shared T P PP B pid b : valid H T -> valid H B -> valid H P -> valid H PP -> valid H (h_void H) ->
  T <> h_value H -> PP <> T -> PP <> h_value H -> (forall p, ~ points_to H PP (smart_kind shared) p) ->
  let id := smart_id shared pid in
  let ext := smart_ext id T P PP B b (smart_more shared T PP (h_void H) b) in
  let rs := RPointer (smart_kind shared) P :: plumbing id T all_caps b ++ ext in
  extension_ok H T id rs ext /\ (forall k' p', ~ In (RPointer k' p') ext).
Proof.
  intros VT VB VP VPP VD NV NP NPV NPK id ext rs.
  assert (NR : forall k' p', ~ In (RPointer k' p') ext).
  { intros k' p' I. subst ext. unfold smart_ext in I. destruct shared; cbn -[lit id] in I; in_cases I. }
  split; [|exact NR].
  assert (AL : alien H T rs PP).
  { repeat (split; [assumption|]). intros k p q PT [I|I].
    - injection I as <- <-. now apply NPK in PT.
    - apply in_app_or in I as [I|I]; [now apply plumbing_no_pointer in I|now apply NR in I]. }
  subst ext. unfold smart_ext. constructor.
  - intros n0 ret0 args0 code0 I0. destruct shared; cbn -[lit id] in I0; in_cases I0; injection I0; intros; subst; vld.
  - intros k0 p0 I0. now apply NR in I0.
  - intros n0 I0. destruct shared; cbn -[lit id] in I0; in_cases I0; injection I0 as <-; split; discriminate.
  - intros ret0 args0 code0 I0. destruct shared; cbn -[lit id] in I0; in_cases I0; injection I0; intros; discriminate.
  - intros ret0 args0 code0 I0. destruct shared; cbn -[lit converterName id] in I0; in_cases I0; injection I0; intros;
      try discriminate; match goal with X : id = converterName id |- _ => symmetry in X; now apply converterName_neq_id in X end.
  - intros ret0 args0 code0 I0. exists (Arg PP Copy false).
    destruct shared; cbn -[lit id] in I0; in_cases I0; injection I0; intros; subst; try discriminate; auto.
  - clearbody rs. destruct shared; cbn -[lit id];
      repeat (apply FOP_cons; [repeat apply Forall_cons; try apply Forall_nil; cbn -[lit id]; try exact I; try (intro; first [discriminate | sep])|]); apply FOP_nil.
Qed.

Lemma smart_plumbed H H' shared T P PP B pid b k : wf_heap H' -> only_changes H H' T ->
  T <> h_value H -> PP <> T -> PP <> h_value H -> valid H PP ->
  (forall p, ~ points_to H PP (smart_kind shared) p) ->
  (forall t, tget H PP = Some t -> t_id t <> lit "bool") ->
  let id := smart_id shared pid in
  let ext := smart_ext id T P PP B b (smart_more shared T PP (h_void H) b) in
  let rs := RPointer (smart_kind shared) P :: plumbing id T k b ++ ext in
  carries H' T id rs -> plumbed_body H' T id k b rs [Fn id (Arg T Copy false) [Arg PP Copy false] (b + 5)].
Proof.
  intros W' OC NV NP NPV VPP NPK NB id ext rs C.
  assert (XI : forall n ret args code, In (RFn n ret args code) rs -> In (RFn n ret args code) (plumbing id T k b) \/ In (RFn n ret args code) ext).
  { intros n ret args code [I|I]; [discriminate|]. now apply in_app_or in I. }
  assert (NM : forall n ret args code, In (RFn n ret args code) ext -> n = id \/ n = lit "get" \/ n = lit "operator bool()" \/ n = lit "operator*"
     \/ n = lit "operator==" \/ n = lit "reset" \/ n = lit "release").
  { intros n ret args code I. subst ext. unfold smart_ext in I. destruct shared; cbn -[lit id] in I; in_cases I; injection I; intros; subst; auto 10. }
  constructor; auto.
  - change (fns_of id rs) with (fns_of id (plumbing id T k b ++ ext)). rewrite fns_of_app. f_equal.
    subst ext. unfold smart_ext. cbn [app].
        match goal with |- fns_of _ (?r :: ?l) = _ => change (r :: l) with ([r] ++ l) end.
    rewrite fns_of_app. match goal with |- _ ++ fns_of _ ?l = _ => rewrite (fns_of_none id l) end.
    + unfold fns_of. cbn [flat_map]. rewrite str_eqb_refl. reflexivity.
    + intros ret args code I. subst id. destruct shared; cbn -[lit smart_id] in I; in_cases I; injection I; intros; discriminate.
  - change (fns_of (lit "operator=") rs) with (fns_of (lit "operator=") (plumbing id T k b ++ ext)).
    rewrite fns_of_app, (fns_of_none (lit "operator=") ext), app_nil_r; auto.
    intros ret args code I. apply NM in I. subst id. destruct shared; intuition discriminate.
  - intros ret args code I. apply XI in I as [I|I].
    + apply plumbing_names in I as [I|I]; [now apply converterName_neq_id in I|now apply converterName_neq_assign in I].
    + apply NM in I. destruct I as [I|I]; [now apply converterName_neq_id in I|]. subst id. destruct shared; intuition discriminate.
  - constructor; [|constructor]. exists (Arg PP Copy false), (b + 5). destruct OC as (OC1 & OC2 & OC3 & OC4).
    split; [reflexivity|]. split; [unfold arg_valid, valid; cbn; rewrite OC2; exact VPP|].
    split; [exact NP|]. split; [cbn; congruence|]. cbn. pose proof C as (t & E1 & E2 & E3 & E4 & E5 & E6 & _). split.
    + intro S0. inversion S0 as [x Ex|x p y Pp|x y kk pa pb Pa Pb]; subst x; try (subst y).
      * congruence.
      * destruct Pp as (u & Eu & Pu). congruence.
      * destruct Pa as (u & Eu & Tu & Ku & Qu). destruct Pb as (u2 & Eu2 & Tu2 & Ku2 & Qu2).
        rewrite OC1 in Eu2 by auto. apply (NPK pb). exists u2. repeat split; auto.
        assert (PO : pointer_of rs = Some (smart_kind shared, P)).
        { subst rs. unfold pointer_of. cbn [fold_left].
          assert (G : forall l o, (forall k' p', ~ In (RPointer k' p') l) ->
             fold_left (fun o r => match r with RPointer k p => Some (k, p) | _ => o end) l o = o).
          { induction l as [|r l IH]; intros o Hl; cbn; auto. rewrite IH.
            - destruct r; auto. exfalso. eapply Hl. now left.
            - intros k' p' I'. eapply Hl. right. exact I'. }
          apply G. intros k' p' I. apply in_app_or in I as [I|I]; [now apply plumbing_no_pointer in I|].
          subst ext. unfold smart_ext in I. destruct shared; cbn -[lit id] in I; in_cases I. }
        destruct (E6 _ _ PO) as [K1 K2]. congruence.
    + intro CV. destruct (carries_conversion _ _ _ _ PP C) as (tu & ret & args & code & Eu & I); [|auto|].
      { rewrite OC1 by auto. intro X. apply nth_error_None in X. unfold valid in VPP. lia. }
      rewrite OC1 in Eu by auto. apply NB in Eu as NB'. apply XI in I as [I|I].
      * apply plumbing_names in I as [I|I]; [|now apply converterName_neq_assign in I].
        subst id. destruct shared; discriminate I.
      * apply NM in I. destruct I as [I|I]; [subst id; destruct shared; discriminate I|].
        destruct I as [I|[I|I]]; [discriminate| |intuition discriminate].
        apply NB'. unfold converterName in I. 
        change (lit "operator bool()") with (lit "operator " ++ lit "bool" ++ lit "()") in I.
        apply app_inv_head in I. now apply app_inv_tail in I.
  - constructor; [intros []|constructor].
Qed.
