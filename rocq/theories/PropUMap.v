(* PropUMap.v - C82: JSON and std::unordered_map. *)
From Coq Require String. Import String.StringSyntax.
From Verif Require Import Base Dec ModelJson ModelJsonW ModelJsonT SpecJson SpecJsonT ProofJson1 ProofJsonT1 ProofJsonT2 ProofJsonT3 ProofJsonT4 ProofJsonT5 PropJsonStr PropJsonTok PropJsonDoc ModelUMap SpecUMap ProofUMap ProofUMap2.
Local Open Scope outcome_scope.

Lemma sorted_NoDup l : sorted l -> NoDup l.
Proof.
  induction l as [|a l IH]; intro H; constructor; destruct H as [H1 H2]; auto.
  intro K. specialize (H1 _ K). rewrite str_ltb_irrefl in H1. discriminate.
Qed.
Lemma maps_ok_mono (P Q : list str -> Prop) v : (forall ks, P ks -> Q ks) -> maps_ok P v -> maps_ok Q v.
Proof. intros H. induction 1; constructor; auto. Qed.
Lemma sorted_unique v : sorted_maps v -> unique_keys v.
Proof. apply maps_ok_mono. apply sorted_NoDup. Qed.
Lemma lawful_NoDup ins : lawful ins -> lawful_on (fun ks => NoDup ks) ins.
Proof. intros L r k x m. apply L. Qed.
Lemma same_end_of (P Q : list str -> Prop) x y : (forall ks, P ks -> NoDup ks) -> (forall ks, Q ks -> NoDup ks) ->
  orel (steps (rel P Q)) x y -> same_end x y.
Proof.
  intros HP HQ. destruct x as [[v r]| | | |], y as [[v' r']| | | |]; cbn; auto. intros [(A & B & C) D]. cbn in *.
  split; [exact A|]. split; [now apply (maps_ok_mono P)|]. split; [now apply (maps_ok_mono Q)|]. now symmetry.
Qed.

(* Whatever order the tables of two C++ libraries keep their pairs in, and whatever
   the rehashes do to it: the same text read by both into targets that are alike ends
   the same way, with the same error if any, the same part of the text taken, and like
   values.  For every text, every type and every fuel. *)
Theorem c82_order_free : forall (ins1 ins2 : insertion) (fuel : nat) (o : ropts) (e : env) (t : nat) (v u : val) (s : str),
  lawful ins1 -> lawful ins2 -> inits_ok e -> unique_keys v -> unique_keys u -> alike v u ->
  same_end (parse_text_u ins1 fuel o e t v s) (parse_text_u ins2 fuel o e t u s).
Proof.
  intros ins1 ins2 fuel o e t v u s L1 L2 He Hv Hu Ha. apply (same_end_of (fun ks => NoDup ks) (fun ks => NoDup ks)); auto.
  apply parse_text_sim; auto using lawful_NoDup, NoDup_nil. split; [exact Ha|]. split; [exact Hv|exact Hu].
Qed.
Print Assumptions c82_order_free.

(* std::unordered_map behaves as std::map (the model of C39 to C41) does, up to the
   order of the pairs. *)
Theorem c82_like_map : forall (ins : insertion) (fuel : nat) (o : ropts) (e : env) (t : nat) (v u : val) (s : str),
  lawful ins -> no_void e -> (forall i, sorted_maps (dval e i)) -> sorted_maps v -> unique_keys u -> alike v u ->
  same_end (parse_text fuel o e t v s) (parse_text_u ins fuel o e t u s).
Proof.
  intros ins fuel o e t v u s L He Hd Hv Hu Ha. rewrite std_text by exact He. apply (same_end_of sorted (fun ks => NoDup ks)); auto using sorted_NoDup.
  apply parse_text_sim; auto using lawful_NoDup, NoDup_nil, std_lawful, sorted_unique.
  - exact Logic.I.
  - exact sorted_NoDup.
  - intro i. apply sorted_unique, Hd.
  - split; [exact Ha|]. split; [exact Hv|exact Hu].
Qed.
Print Assumptions c82_like_map.

(* The same where the maps are those of dynamic values (Value), in types that declare no
   map themselves: std::unordered_map or the first-come order of the model of C39 to C41. *)
Definition in_place : insertion := fun _ k x m => aset k x m.
Lemma in_place_lawful : lawful in_place.
Proof.
  intros r k x m ND. split; [now apply NoDup_akeys_aset|]. intro k'. unfold in_place.
  destruct (str_eqb k' k) eqn:E; [apply str_eqb_eq in E as ->; apply afind_aset_same|].
  apply afind_aset_other. intros ->. rewrite str_eqb_refl in E. discriminate.
Qed.
Lemma aset_new {V} k (x : V) m : ahas k m = false -> aset k x m = m ++ [(k, x)].
Proof.
  induction m as [|[k' y] m IH]; [reflexivity|]. unfold ahas. cbn [afind aset]. destruct (str_eqb k k'); [discriminate|].
  intro H. cbn [app]. f_equal. apply IH. exact H.
Qed.
Lemma in_place_dyn : forall f v r, parse_dyn f v r = parse_dyn_u in_place f v r.
Proof.
  induction f as [|f IH]; intros v r; cbn [parse_dyn parse_dyn_u]; auto.
  destruct (peek_tok r) as [[t r1]| | | |]; cbn [bind]; auto. destruct t; auto.
  - erewrite parse_object_ext; [reflexivity|]. intros k m r0. cbv beta. rewrite IH.
    destruct (parse_dyn_u in_place f VVoid r0) as [[x r']| | | |]; cbn [bind]; auto.
    unfold in_place. destruct (ahas k m) eqn:E; auto. now rewrite (aset_new _ _ _ E).
  - erewrite parse_array_ext; [reflexivity|]. intros k m r0. cbv beta. now rewrite IH.
Qed.
Lemma in_place_parse e : (forall t i, nth_error e t <> Some (DMap i)) ->
  forall f t v r, parse_t f e t v r = parse_u in_place f e t v r.
Proof.
  intro NM. induction f as [|f IH]; intros t v r; cbn [parse_t parse_u]; auto.
  destruct (nth_error e t) as [[| | | |sm i|i|i| |fs ini]|] eqn:Et; auto.
  - destruct (peek_tok r) as [[tk r1]| | | |]; cbn [bind]; auto. destruct (same_type tk TNull); auto. cbv zeta. now rewrite IH.
  - destruct (NM t i Et).
  - erewrite parse_array_ext; [reflexivity|]. intros k s r0. cbv beta. now rewrite IH.
  - now rewrite in_place_dyn.
  - erewrite parse_object_ext; [reflexivity|]. intros k s r0. cbv beta. destruct (find_alias fs k); auto. now rewrite IH.
Qed.
Theorem c82_like_map_dynamic : forall (ins : insertion) (fuel : nat) (o : ropts) (e : env) (t : nat) (v u : val) (s : str),
  lawful ins -> (forall t i, nth_error e t <> Some (DMap i)) -> inits_ok e -> unique_keys v -> unique_keys u -> alike v u ->
  same_end (parse_text fuel o e t v s) (parse_text_u ins fuel o e t u s).
Proof.
  intros ins fuel o e t v u s L NM He Hv Hu Ha.
  replace (parse_text fuel o e t v s) with (parse_text_u in_place fuel o e t v s).
  - apply c82_order_free; auto using in_place_lawful.
  - unfold parse_text, parse_text_u. now rewrite (in_place_parse e NM).
Qed.
Print Assumptions c82_like_map_dynamic.

(* Reading a text of a document j: where a std::map target would become v', the
   unordered one becomes something alike; no error, and exactly the text of the
   document is taken. *)
Theorem c82_read : forall (ins : insertion) (o : ropts) (e : env) (t : nat) (v v' u : val) (j : json) (s rest : str),
  lawful ins -> env_ok e -> no_void e -> (forall i, sorted_maps (dval e i)) -> (t < length e)%nat ->
  sorted_maps v -> unique_keys u -> alike v u ->
  reads e t v j v' -> whole_text (dia o) j s rest ->
  exists steps, forall fuel, (steps <= fuel)%nat ->
    exists u' r, parse_text_u ins fuel o e t u s = Ok (u', r) /\ alike v' u' /\ unique_keys u' /\ rerr r = None /\ rin r = rest.
Proof.
  intros ins o e t v v' u j s rest L Hok He Hd Ht Hv Hu Ha Hr Hs.
  destruct (parse_text_ok o e t v j v' s rest Hok Ht Hr Hs) as (n & Hn). exists n. intros fuel Hf.
  destruct (Hn fuel Hf) as (r & E & E1 & E2). pose proof (c82_like_map ins fuel o e t v u s L He Hd Hv Hu Ha) as S. rewrite E in S.
  destruct (parse_text_u ins fuel o e t u s) as [[u' r']| | | |]; try contradiction. destruct S as (A & _ & B & ->). eauto 10.
Qed.
Print Assumptions c82_read.

(* Round trip: a value u with unordered maps, in any iteration order, prints; and the
   text read back, by a library with any other order, gives a value alike u. *)
Theorem c82_round_trip : forall (ins : insertion) (wo : wopts) (o : ropts) (e : env) (t : nat) (u : val),
  lawful ins -> simple_env e -> (forall i, sorted_maps (dval e i)) -> (t < length e)%nat -> typed e t u ->
  names_ok (str_ok wo (dia o)) e -> all_strings (str_ok wo (dia o)) u ->
  (w_pretty wo = true -> (vdepth u <= 1024)%nat) ->
  exists text steps, forall fuel, (steps <= fuel)%nat ->
    print_text fuel wo e t u = Ok (text, false) /\
    exists u' r, parse_text_u ins fuel o e t (dval e t) text = Ok (u', r) /\ alike u u' /\ unique_keys u' /\
      rerr r = None /\ rin r = [].
Proof.
  intros ins wo o e t u L Hs Hi Ht Hty Hn Hst Hd. pose proof (simple_no_void _ Hs) as Hv.
  destruct (canon e t u Hty) as (C1 & C2 & C3).
  destruct (round_trip_u wo o e t u (in_order u) (dval e t) (proj1 Hs) Hv Ht Hty C3 (simple_restores _ _ _ _ Hs C1 C2) Hn Hst Hd) as (x & n & Hx).
  exists x, n. intros fuel Hf. destruct (Hx fuel Hf) as (P & r & E & E1 & E2). split; [exact P|].
  pose proof (c82_like_map ins fuel o e t (dval e t) (dval e t) x L Hv Hi (Hi t) (sorted_unique _ (Hi t))
    (alike_refl sorted _ sorted_NoDup (Hi t))) as S. rewrite E in S.
  destruct (parse_text_u ins fuel o e t (dval e t) x) as [[u' r']| | | |]; try contradiction. destruct S as (A & _ & B & ->).
  exists u', r. split; [reflexivity|]. split; [|auto]. eapply alike_trans; [apply alike_sym; exact C3|exact A].
Qed.
Print Assumptions c82_round_trip.

(* Any other types and targets: v is u with its maps in key order, v0 the target with
   its maps in key order. *)
Theorem c82_round_trip_any_target : forall (ins : insertion) (wo : wopts) (o : ropts) (e : env) (t : nat) (u v u0 v0 : val),
  lawful ins -> env_ok e -> no_void e -> (forall i, sorted_maps (dval e i)) -> (t < length e)%nat -> typed e t u ->
  alike v u -> sorted_maps v0 -> unique_keys u0 -> alike v0 u0 -> restores e (w_compact wo) t v0 v ->
  names_ok (str_ok wo (dia o)) e -> all_strings (str_ok wo (dia o)) u ->
  (w_pretty wo = true -> (vdepth u <= 1024)%nat) ->
  exists text steps, forall fuel, (steps <= fuel)%nat ->
    print_text fuel wo e t u = Ok (text, false) /\
    exists u' r, parse_text_u ins fuel o e t u0 text = Ok (u', r) /\ alike u u' /\ unique_keys u' /\
      rerr r = None /\ rin r = [].
Proof.
  intros ins wo o e t u v u0 v0 L Hok Hv Hi Ht Hty Ha Hs0 Hu0 Ha0 Hre Hn Hst Hd.
  destruct (round_trip_u wo o e t u v v0 Hok Hv Ht Hty Ha Hre Hn Hst Hd) as (x & n & Hx).
  exists x, n. intros fuel Hf. destruct (Hx fuel Hf) as (P & r & E & E1 & E2). split; [exact P|].
  pose proof (c82_like_map ins fuel o e t v0 u0 x L Hv Hi Hs0 Hu0 Ha0) as S. rewrite E in S.
  destruct (parse_text_u ins fuel o e t u0 x) as [[u' r']| | | |]; try contradiction. destruct S as (A & _ & B & ->).
  exists u', r. split; [reflexivity|]. split; [|auto]. eapply alike_trans; [apply alike_sym; exact Ha|exact A].
Qed.
Print Assumptions c82_round_trip_any_target.

(* ---- concrete libraries: the newest pair last; the newest pair first and every old
   one reversed on each insertion (a table that rehashes all the time); key order ---- *)
Definition ins_last : insertion := fun _ => aset.
Definition adel (k : str) (m : list (str * val)) := filter (fun kx => negb (str_eqb (fst kx) k)) m.
Definition ins_shuffle : insertion := fun _ k x m => (k, x) :: rev (adel k m).

Lemma ins_last_lawful : lawful ins_last.
Proof.
  intros r k x m H. unfold ins_last. split; [now apply NoDup_akeys_aset|]. intro k'. destruct (str_eqb_spec k' k) as [->|N].
  - apply afind_aset_same.
  - now apply afind_aset_other.
Qed.
Lemma adel_keys k m k' : In k' (akeys (adel k m)) <-> In k' (akeys m) /\ k' <> k.
Proof.
  unfold adel. induction m as [|[k0 y] m IH]; cbn; [tauto|]. destruct (str_eqb_spec k0 k) as [->|N]; cbn.
  - rewrite IH. intuition (subst; tauto).
  - unfold akeys in IH. rewrite IH. intuition (subst; tauto).
Qed.
Lemma adel_NoDup k m : NoDup (akeys m) -> NoDup (akeys (adel k m)).
Proof.
  induction m as [|[k0 y] m IH]; cbn; intro H; [constructor|]. inversion H as [|? ? A B]; subst.
  destruct (str_eqb_spec k0 k); cbn; auto. constructor; auto. intro K. apply A. now apply (adel_keys k m k0) in K.
Qed.
Lemma adel_find k m k' : k' <> k -> afind k' (adel k m) = afind k' m.
Proof.
  intro N. unfold adel. induction m as [|[k0 y] m IH]; cbn; [reflexivity|]. destruct (str_eqb_spec k0 k) as [->|N2]; cbn.
  - destruct (str_eqb_spec k' k); congruence.
  - destruct (str_eqb k' k0); auto.
Qed.
Lemma rev_find (m : list (str * val)) k : NoDup (akeys m) -> afind k (rev m) = afind k m.
Proof.
  intro H. assert (Hr : NoDup (akeys (rev m))) by (unfold akeys; rewrite map_rev; now apply NoDup_rev).
  destruct (afind k m) as [x|] eqn:E.
  - apply afind_In in E. apply In_afind_NoDup; auto. now apply in_rev in E.
  - apply afind_None in E. apply afind_None. unfold akeys. rewrite map_rev. intro K. apply in_rev in K. contradiction.
Qed.
Lemma ins_shuffle_lawful : lawful ins_shuffle.
Proof.
  intros r k x m H. unfold ins_shuffle. split.
  - unfold akeys. cbn [map fst]. rewrite map_rev. constructor.
    + intro K. apply in_rev in K. apply (adel_keys k m k) in K. tauto.
    + apply NoDup_rev. now apply adel_NoDup.
  - intro k'. cbn [afind]. destruct (str_eqb_spec k' k) as [->|N]; [reflexivity|].
    rewrite rev_find by now apply adel_NoDup. now apply adel_find.
Qed.

(* struct Box of C40, its map an unordered_map with iteration order b, a *)
Definition u_box : val := box (lit "x") 5 [] [(lit "b", VBool true); (lit "a", VBool false)].
Lemma u_box_typed : typed box_env 0 u_box.
Proof.
  apply box_typed; [unfold int64; lia|intros x []| |].
  - constructor; [|constructor; [intros []|constructor]]. cbn. intros [Q|[]]. discriminate.
  - intros k x [H|[H|[]]]; injection H as <- <-; now apply ty_bool.
Qed.
Lemma box_inits i : sorted_maps (dval box_env i).
Proof.
  destruct i as [|[|[|[|[|[|i]]]]]]; try (vm_compute; constructor; fail).
  - vm_compute. constructor. intros k x Hx. repeat (destruct Hx as [Hx|Hx]; [injection Hx as <- <-; constructor|]); try exact Logic.I; try (intros; contradiction).
  - constructor. intros x [].
  - constructor; [exact Logic.I|intros k x []].
  - replace (dval box_env (S (S (S (S (S (S i))))))) with VVoid; [constructor|]. unfold dval. destruct i; reflexivity.
Qed.
Example c82_example : forall ins, ins = ins_last \/ ins = ins_shuffle ->
  exists text steps, forall fuel, (steps <= fuel)%nat ->
    print_text fuel wopts_default box_env 0 u_box = Ok (text, false) /\
    exists u' r, parse_text_u ins fuel ropts_default box_env 0 (dval box_env 0) text = Ok (u', r) /\ alike u_box u' /\
      unique_keys u' /\ rerr r = None /\ rin r = [].
Proof.
  intros ins Hi. apply c82_round_trip.
  - destruct Hi as [->| ->]; [exact ins_last_lawful|exact ins_shuffle_lawful].
  - exact box_simple.
  - exact box_inits.
  - cbn; lia.
  - exact u_box_typed.
  - exact box_names.
  - unfold u_box, box. strs.
  - discriminate.
Qed.
Example c82_example_text :
  let text := lit "{" ++ q (lit "in") ++ lit ":[]," ++ q (lit "n") ++ lit ":" ++ q (lit "x") ++ lit "," ++
    q (lit "on") ++ lit ":{" ++ q (lit "b") ++ lit ":true," ++ q (lit "a") ++ lit ":false}," ++ q (lit "size") ++ lit ":5}" in
  print_text 50 wopts_default box_env 0 u_box = Ok (text, false) /\
  (exists r, parse_text_u ins_last 50 ropts_default box_env 0 (dval box_env 0) text = Ok (u_box, r) /\ rerr r = None) /\
  (exists r, parse_text_u ins_shuffle 50 ropts_default box_env 0 (dval box_env 0) text =
     Ok (box (lit "x") 5 [] [(lit "a", VBool false); (lit "b", VBool true)], r) /\ rerr r = None).
Proof. cbv zeta. split; [vm_compute; reflexivity|]. split; eexists; wit. Qed.

(* a vector of Value: the objects of the second and third item get any order *)
Definition values_env : env := [DList 1; DVoid].
Example c82_values : (forall t i, nth_error values_env t <> Some (DMap i)) /\ inits_ok values_env /\
  exists r r', parse_text 50 ropts_default values_env 0 (VList []) (lit "[1,{" ++ q (lit "b") ++ lit ":2," ++ q (lit "a") ++ lit ":3}]") =
     Ok (VList [VInt 1; VMap [(lit "b", VInt 2); (lit "a", VInt 3)]], r) /\
   parse_text_u ins_shuffle 50 ropts_default values_env 0 (VList []) (lit "[1,{" ++ q (lit "b") ++ lit ":2," ++ q (lit "a") ++ lit ":3}]") =
     Ok (VList [VInt 1; VMap [(lit "a", VInt 3); (lit "b", VInt 2)]], r') /\ rerr r = None /\ rerr r' = None.
Proof.
  split; [intros [|[|[|t]]] i H; cbn in H; discriminate|].
  split; [intros [|[|[|t]]]; cbn; repeat constructor; intros x []|].
  eexists. eexists. split; [vm_compute; reflexivity|]. split; [vm_compute; reflexivity|]. split; reflexivity.
Qed.

(* What is not true: equal unordered maps may print different texts. *)
Theorem c82_same_text_refuted :
  let u := VMap [(lit "b", VBool true); (lit "a", VBool false)] in
  let u' := VMap [(lit "a", VBool false); (lit "b", VBool true)] in
  alike u u' /\ typed [DMap 1; DBool] 0 u /\ typed [DMap 1; DBool] 0 u' /\
  exists x x', print_text 10 wopts_default [DMap 1; DBool] 0 u = Ok (x, false) /\
    print_text 10 wopts_default [DMap 1; DBool] 0 u' = Ok (x', false) /\ x <> x'.
Proof.
  cbv zeta. split; [|split; [|split]].
  - constructor.
    + intro k. cbn. tauto.
    + intros k x y. cbn [afind]. destruct (str_eqb_spec k (lit "b")) as [->|_].
      * intros E1 E2. injection E1 as <-. change (Some (VBool true) = Some y) in E2. injection E2 as <-. constructor.
      * destruct (str_eqb k (lit "a")); [|discriminate]. intros E1 E2. injection E1 as <-. injection E2 as <-. constructor.
  - eapply ty_map; [reflexivity| |].
    + constructor; [|constructor; [intros []|constructor]]. cbn. intros [Q|[]]. discriminate.
    + intros k x [H|[H|[]]]; injection H as <- <-; now apply ty_bool.
  - eapply ty_map; [reflexivity| |].
    + constructor; [|constructor; [intros []|constructor]]. cbn. intros [Q|[]]. discriminate.
    + intros k x [H|[H|[]]]; injection H as <- <-; now apply ty_bool.
  - do 2 eexists. split; [vm_compute; reflexivity|]. split; [vm_compute; reflexivity|]. discriminate.
Qed.
Print Assumptions c82_same_text_refuted.
