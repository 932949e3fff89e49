(* PropJsonDoc.v - C40, C41, C49: whole documents and reflected types. *)
From Coq Require String. Import String.StringSyntax.
From Verif Require Import Base Dec ModelJson ModelJsonW ModelJsonT SpecJson SpecJsonT ProofJson1 ProofJson2 ProofJson3 ProofJson4 ProofJson5 ProofJson6 ProofJson7 ProofJson8 ProofJson9 ProofJson10 ProofJsonT1 ProofJsonT2 ProofJsonT3 ProofJsonT4 ProofJsonT5 PropJsonStr PropJsonTok.
Local Open Scope outcome_scope.

(* ==== C40 ==== *)
(* For every environment of simple types, every value v of a type t of it, every
   writer options wo and reader options o such that the strings of v and the field
   names can be written and read with these options: printing v succeeds, and
   parsing the printed text into a value-initialised object succeeds, gives v, and
   takes all of the text.  Pretty printing has a limit of 1024 levels. *)
Theorem c40_round_trip : forall (wo : wopts) (o : ropts) (e : env) (t : nat) (v : val),
  simple_env e -> (t < length e)%nat -> typed e t v -> sorted_maps v ->
  names_ok (str_ok wo (dia o)) e -> all_strings (str_ok wo (dia o)) v ->
  (w_pretty wo = true -> (vdepth v <= 1024)%nat) ->
  exists text steps, forall fuel, (steps <= fuel)%nat ->
    print_text fuel wo e t v = Ok (text, false) /\
    exists r, parse_text fuel o e t (dval e t) text = Ok (v, r) /\ rerr r = None /\ rin r = [].
Proof.
  intros wo o e t v Hs Ht Hty Hm Hn Ha Hd. apply round_trip; auto.
  - apply Hs.
  - now apply simple_no_void.
  - now apply simple_restores.
Qed.
Print Assumptions c40_round_trip.

(* Doubles, pointers, skipped fields and targets that are not value-initialised: the
   same, provided nothing the printer leaves out is lost ([restores]). *)
Theorem c40_round_trip_any_target : forall (wo : wopts) (o : ropts) (e : env) (t : nat) (v v0 : val),
  env_ok e -> no_void e -> (t < length e)%nat -> typed e t v -> restores e (w_compact wo) t v0 v ->
  names_ok (str_ok wo (dia o)) e -> all_strings (str_ok wo (dia o)) v ->
  (w_pretty wo = true -> (vdepth v <= 1024)%nat) ->
  exists text steps, forall fuel, (steps <= fuel)%nat ->
    print_text fuel wo e t v = Ok (text, false) /\
    exists r, parse_text fuel o e t v0 text = Ok (v, r) /\ rerr r = None /\ rin r = [].
Proof. intros. now apply round_trip. Qed.
Print Assumptions c40_round_trip_any_target.

(* struct Box { string name (alias n); int64_t size; vector<Box> in; map<string, bool> on (skipEmpty) } *)
Definition box_env : env :=
  [DObj [mkF (lit "name") 1 false (lit "n") false; mkF (lit "size") 2 false [] false;
         mkF (lit "in") 3 false [] false; mkF (lit "on") 4 false [] true]
        [(lit "name", VStr []); (lit "size", VInt 0); (lit "in", VList []); (lit "on", VMap [])];
   DStr; DInt true; DList 0; DMap 5; DBool].
Definition box (n : str) (z : Z) (l : list val) (m : list (str * val)) : val :=
  VObj [(lit "name", VStr n); (lit "size", VInt z); (lit "in", VList l); (lit "on", VMap m)].
Definition a_box : val :=
  box (lit "top") (-7) [box [] 0 [] []; box (lit "x") 5 [] [(lit "a", VBool true); (lit "b", VBool false)]] [].

Lemma box_simple : simple_env box_env.
Proof.
  assert (Hnd : forall l : list str, (fix nd l := match l with [] => true | x :: l' => negb (smem x l') && nd l' end) l = true -> NoDup l).
  { induction l as [|x l IH]; intro H; constructor.
    - apply andb_prop in H as [H _]. intro K. apply smem_In in K. rewrite K in H. discriminate.
    - apply andb_prop in H as [_ H]. auto. }
  split; intros t d H; (destruct t as [|[|[|[|[|[|t]]]]]]; cbn in H; try (destruct t; discriminate); injection H as <-).
  all: try (split; [exact I|intros i Hi; cbn in Hi; destruct Hi as [<-|[]]; cbn; lia]).
  all: try exact I.
  all: try (split; [exact I|intros i []]).
  - split; [apply Hnd; vm_compute; reflexivity|]. cbn. intros i Hi. intuition lia.
  - split; [reflexivity|]. intros f Hf. repeat (destruct Hf as [<-|Hf]; [split; vm_compute; reflexivity|]). destruct Hf.
Qed.
Lemma box_typed n z l m : int64 z -> (forall x, In x l -> typed box_env 0 x) -> NoDup (akeys m) ->
  (forall k x, In (k, x) m -> typed box_env 5 x) -> typed box_env 0 (box n z l m).
Proof.
  intros Hz Hl Hs Hm. eapply ty_obj; [reflexivity| |reflexivity|].
  - cbn. repeat (constructor; [cbn; intuition discriminate|]). constructor.
  - intros f x Hf Hx. repeat (destruct Hf as [<-|Hf]; [vm_compute in Hx; injection Hx as <-|]); [now apply ty_str|now apply ty_int| | |destruct Hf].
    + eapply ty_list; [reflexivity|]. exact Hl.
    + eapply ty_map; [reflexivity|exact Hs|exact Hm].
Qed.
Lemma a_box_typed : typed box_env 0 a_box.
Proof.
  apply box_typed; [unfold int64; lia| |constructor|intros k x []].
  intros x [<-|[<-|[]]]; (apply box_typed; [unfold int64; lia|intros x []| |]); try constructor; try solve [intros k x []].
  - cbn. intros [Q|[]]. discriminate.
  - repeat constructor. intros [].
  - intros k x [H|[H|[]]]; injection H as <- <-; now apply ty_bool.
Qed.
Lemma a_box_sorted : sorted_maps a_box.
Proof.
  assert (Bx : forall n z l m, (forall x, In x l -> sorted_maps x) -> sorted (akeys m) -> (forall k x, In (k, x) m -> sorted_maps x) -> sorted_maps (box n z l m)).
  { intros n z l m Hl Hs Hm. constructor. intros k x Hx. repeat (destruct Hx as [Hx|Hx]; [injection Hx as <- <-; constructor; auto|]). destruct Hx. }
  assert (B0 : forall n z, sorted_maps (box n z [] [])) by (intros; apply Bx; [intros x []|exact I|intros k x []]).
  apply Bx; [|exact I|intros k x []]. intros x [<-|[<-|[]]]; [apply B0|]. apply Bx; [intros x []| |].
  - cbn. repeat split; auto. intros b [<-|[]]. reflexivity.
  - intros k x [H|[H|[]]]; injection H as <- <-; constructor.
Qed.
Example c40_example_text :
  print_text 50 (mkWO true false true true) box_env 0 (box (lit "t") 1 [] [(lit "a", VBool true)]) =
    Ok (lit "{" ++ [10%N] ++ lit "    " ++ q (lit "in") ++ lit ": [  ]," ++ [10%N] ++
        lit "    " ++ q (lit "n") ++ lit ": " ++ q (lit "t") ++ lit "," ++ [10%N] ++
        lit "    " ++ q (lit "on") ++ lit ": { " ++ q (lit "a") ++ lit ": true }," ++ [10%N] ++
        lit "    " ++ q (lit "size") ++ lit ": 1" ++ [10%N] ++ lit "}", false).
Proof. vm_compute. reflexivity. Qed.
Lemma ascii_text (P : N -> Prop) s : forallb (fun c => (c <? 128)%N) s = true -> (forall c, In c s -> P c) -> utf8_text P s.
Proof.
  induction s as [|c s IH]; intros H HP; [constructor|]. cbn [forallb] in H. apply andb_prop in H as [H1 H2]. apply N.ltb_lt in H1.
  assert (E : utf8 c = [c]). { unfold utf8. destruct (N.ltb_spec c 0x80); [reflexivity|lia]. }
  change (c :: s) with ([c] ++ s). rewrite <- E. constructor; [lia|apply HP; now left|]. apply IH; auto. intros x Hx. apply HP. now right.
Qed.
Lemma ascii_ok s : forallb (fun c => (c <? 128)%N) s = true -> str_ok wopts_default (dia ropts_default) s.
Proof.
  intro H. split; [|reflexivity]. apply ascii_text; auto. intros c Hc. rewrite forallb_forall in H. specialize (H c Hc). cbv beta in H. apply N.ltb_lt in H. lia.
Qed.
Lemma box_names : names_ok (str_ok wopts_default (dia ropts_default)) box_env.
Proof.
  intros t fs ini f H Hf. destruct t as [|[|[|[|[|[|t]]]]]]; cbn in H; try (destruct t; discriminate); try discriminate.
  injection H as <- <-. repeat (destruct Hf as [<-|Hf]; [apply ascii_ok; reflexivity|]). destruct Hf.
Qed.
Ltac strs := repeat first
  [ apply ascii_ok; reflexivity
  | apply als_bool | apply als_int | apply als_str
  | apply als_list; let x := fresh in let H := fresh in intros x H; repeat (destruct H as [<-|H]); [..|destruct H]
  | apply als_map; let k := fresh in let x := fresh in let H := fresh in intros k x H;
      repeat (destruct H as [H|H]; [injection H as <- <-; split|]); [..|destruct H]
  | apply als_obj; let k := fresh in let x := fresh in let H := fresh in intros k x H;
      repeat (destruct H as [H|H]; [injection H as <- <-|]); [..|destruct H] ].
Example c40_example :
  exists text steps, forall fuel, (steps <= fuel)%nat ->
    print_text fuel wopts_default box_env 0 a_box = Ok (text, false) /\
    exists r, parse_text fuel ropts_default box_env 0 (dval box_env 0) text = Ok (a_box, r) /\ rerr r = None /\ rin r = [].
Proof.
  apply c40_round_trip.
  - exact box_simple.
  - cbn; lia.
  - exact a_box_typed.
  - exact a_box_sorted.
  - exact box_names.
  - unfold a_box, box. strs.
  - discriminate.
Qed.

(* Outside of these types: printing a short or an unsigned integer is fatal; so is
   reading one. *)
Theorem c40_other_integers_refuted :
  print_text 10 wopts_default [DInt false] 0 (VInt 1) = Abort /\
  parse_text 10 ropts_default [DInt false] 0 (VInt 0) (lit "1 ") = Abort.
Proof. split; vm_compute; reflexivity. Qed.
Print Assumptions c40_other_integers_refuted.

(* A pointer to an empty object: compact printing leaves the field out, and reading
   gives a null pointer. *)
Theorem c40_compact_pointer_refuted :
  let e := [DObj [mkF (lit "p") 1 false [] false] [(lit "p", VPtr None)]; DPtr true 2; DInt true] in
  let v := VObj [(lit "p", VPtr (Some (VInt 0)))] in
  typed e 0 v /\
  print_text 10 (mkWO false true true true) e 0 v = Ok (lit "{}", false) /\
  exists r, parse_text 10 ropts_default e 0 (dval e 0) (lit "{}") = Ok (VObj [(lit "p", VPtr None)], r) /\ rerr r = None.
Proof.
  cbv zeta. split; [|split].
  - eapply ty_obj; [reflexivity| |reflexivity|].
    + cbn. repeat (constructor; [cbn; tauto|]). constructor.
    + intros f x [<-|[]] Hx. vm_compute in Hx. injection Hx as <-. eapply ty_ptr; [reflexivity|]. apply ty_int; [reflexivity|unfold int64; lia].
  - vm_compute. reflexivity.
  - eexists. wit.
Qed.
Print Assumptions c40_compact_pointer_refuted.

(* A string that is not UTF-8 does not survive: the writer reports an error. *)
Theorem c40_bad_utf8_refuted : exists text, print_text 10 wopts_default [DStr] 0 (VStr [200%N]) = Ok (text, true).
Proof. eexists. vm_compute. reflexivity. Qed.
Print Assumptions c40_bad_utf8_refuted.

(* Pretty printing more than 1024 levels reads past the end of a buffer. *)
Fixpoint tower (n : nat) : val := match n with O => VList [] | S n' => VList [VList []; tower n'] end.
Lemma tower_ub : forall n f w, w_pretty (wopt w) = true -> werr w = false -> (windent w + N.of_nat n > 1024)%N -> (n + 1 <= f)%nat ->
  (windent w <= 1024)%N -> print_t f [DList 0] 0 (tower n) w = UB.
Proof.
  induction n as [|n IH]; intros f w Hp He Hi Hf Hw; [lia|]. destruct f as [|f]; [lia|]. cbn [tower print_t nth_error]. unfold print_array.
  cbn [length Nat.ltb Nat.leb]. unfold wnewline at 1. cbn [indent push wopt windent]. rewrite Hp.
  destruct (4096 <? (windent w + 1) * 4)%N eqn:L; [reflexivity|]. apply N.ltb_ge in L. cbn [bind].
  cbn [parray_loop]. unfold wok at 1. cbn [push indent werr negb nth_error]. rewrite He. cbn [negb bind].
  destruct f as [|f]; [lia|].
  match goal with |- context [print_t (S f) [DList 0] 0 (VList []) ?w] => set (w1 := w) end.
  assert (E : print_t (S f) [DList 0] 0 (VList []) w1 = Ok (push (lit "]") (wspace (wspace (push (lit "[") w1))))) by reflexivity.
  rewrite E. cbn [bind]. set (w2 := push (lit "]") _).
  assert (H2 : w_pretty (wopt w2) = true /\ werr w2 = false /\ windent w2 = (windent w + 1)%N).
  { unfold w2, wspace. cbn [push wopt w_pretty w1 indent]. rewrite Hp. cbn. rewrite Hp. cbn. auto. }
  destruct H2 as (A & B & C). unfold wok. rewrite B. cbn [negb]. unfold wnewline at 1. cbn [push wopt windent]. rewrite A, C.
  rewrite (proj2 (N.ltb_ge _ _) L). cbn [bind]. rewrite IH; auto; cbn [push windent]; lia.
Qed.
Theorem c40_deep_pretty_refuted : forall wo fuel, w_pretty wo = true -> (2000 <= fuel)%nat ->
  typed [DList 0] 0 (tower 1025) /\ print_text fuel wo [DList 0] 0 (tower 1025) = UB.
Proof.
  intros wo fuel Hp Hf. split.
  - generalize 1025. induction n as [|n IH]; (eapply ty_list; [reflexivity|]); [intros x []|].
    intros x [<-|[<-|[]]]; auto. eapply ty_list; [reflexivity|]. intros x [].
  - unfold print_text. assert (E : init_printer fuel [DList 0] 0 [] = Ok [0]) by (destruct fuel as [|[|fuel]]; [lia|lia|reflexivity]).
    rewrite E. cbn [bind]. rewrite tower_ub; auto; cbn; lia.
Qed.
Print Assumptions c40_deep_pretty_refuted.

(* ==== C41 ==== *)
(* Elements of a list, in order, after those already there; exactly the text of the
   array is taken.  [reads e i (dval e i) j x]: document j read into a fresh object of
   the element type gives x; null is not read into a list of raw pointers. *)
Lemma Forall2_items e i js xs : Forall2 (fun j x => ~ raw_null e i j /\ reads e i (dval e i) j x) js xs -> reads_items e i js xs.
Proof. induction 1 as [|j x js xs [A B]]; now constructor. Qed.
Lemma Forall2_pairs e i kjs kxs : Forall2 (fun kj kx => fst kx = fst kj /\ ~ raw_null e i (snd kj) /\ reads e i (dval e i) (snd kj) (snd kx)) kjs kxs -> reads_pairs e i kjs kxs.
Proof. induction 1 as [|[k j] [k' x] ? ? (A & B & C)]; [constructor|]. cbn [fst snd] in *. subst. now constructor. Qed.

Theorem c41_list_appends : forall (o : ropts) (e : env) (t i : nat) (l xs : list val) (js : list json) (s rest : str),
  env_ok e -> nth_error e t = Some (DList i) ->
  Forall2 (fun j x => ~ raw_null e i j /\ reads e i (dval e i) j x) js xs ->
  json_text (dia o) (JArr js) s rest ->
  exists steps, forall fuel, (steps <= fuel)%nat ->
    exists r, parse_text fuel o e t (VList l) s = Ok (VList (l ++ xs), r) /\ rerr r = None /\ rin r = rest.
Proof.
  intros o e t i l xs js s rest He Ht Hx Hs. apply (parse_text_ok o e t (VList l) (JArr js)); auto.
  - apply nth_error_Some. congruence.
  - eapply rd_list; eauto. now apply Forall2_items.
  - now constructor.
Qed.
Print Assumptions c41_list_appends.

(* A map: the last occurrence of each key, and the other keys as they were. *)
Theorem c41_map_last_wins : forall (o : ropts) (e : env) (t i : nat) (m kxs : list (str * val)) (kjs : list (str * json)) (s rest : str),
  env_ok e -> nth_error e t = Some (DMap i) -> sorted (akeys m) ->
  Forall2 (fun kj kx => fst kx = fst kj /\ ~ raw_null e i (snd kj) /\ reads e i (dval e i) (snd kj) (snd kx)) kjs kxs ->
  json_text (dia o) (JObj kjs) s rest ->
  exists m', sorted (akeys m') /\
    (forall k, afind k m' = match last_of k kxs with Some x => Some x | None => afind k m end) /\
    exists steps, forall fuel, (steps <= fuel)%nat ->
      exists r, parse_text fuel o e t (VMap m) s = Ok (VMap m', r) /\ rerr r = None /\ rin r = rest.
Proof.
  intros o e t i m kxs kjs s rest He Ht Hm Hx Hs. exists (put_all m kxs).
  pose proof (put_all_updated kxs m Hm) as Hu. split; [apply Hu|]. split; [apply Hu|]. apply (parse_text_ok o e t (VMap m) (JObj kjs)); auto.
  - apply nth_error_Some. congruence.
  - apply (rd_map e t i m kjs kxs); auto. now apply Forall2_pairs.
  - now constructor.
Qed.
Print Assumptions c41_map_last_wins.

(* A class.  [known]: the members of the document that name a non skipped field, by
   alias if there is one; the others are ignored.  When no member is repeated, each
   named field is its old value with that member read into it, and every other field
   is unchanged. *)
Definition named (fs : list field) (a : str) (f : field) : Prop := In f fs /\ f_skip f = false /\ json_name f = a.

Lemma members_exist e fs : forall (kjs : list (str * json)) (o : list (str * val)),
  NoDup (map json_name (filter (fun f => negb (f_skip f)) fs)) -> NoDup (map f_key fs) ->
  NoDup (map fst kjs) ->
  (forall a j, In (a, j) kjs -> (exists f cur x, named fs a f /\ afind (f_key f) o = Some cur /\ reads e (f_type f) cur j x) \/
                                (forall f, ~ named fs a f)) ->
  exists o', reads_members e fs o kjs o' /\ akeys o' = akeys o /\
    (forall f a j cur, named fs a f -> In (a, j) kjs -> afind (f_key f) o = Some cur ->
       exists x, reads e (f_type f) cur j x /\ afind (f_key f) o' = Some x) /\
    (forall k, (forall f a j, named fs a f -> In (a, j) kjs -> f_key f <> k) -> afind k o' = afind k o).
Proof.
  intros kjs o Hn Hk. revert o. induction kjs as [|[a j] kjs IH]; intros o Hd Hj.
  - exists o. split; [constructor|]. split; [auto|]. split; [intros f a j cur _ []|auto].
  - cbn [map fst] in Hd. inversion Hd as [|? ? D1 D2]; subst.
    assert (Hinj : forall f g, named fs (json_name f) f -> named fs (json_name f) g -> g = f).
    { intros f g (A1 & A2 & _) (B1 & B2 & B3). apply (name_inj (obj_fields fs)); auto; apply filter_In; (split; [auto|]); [now rewrite B2|now rewrite A2]. }
    assert (Hkey : forall f g, In f fs -> In g fs -> f_key f = f_key g -> f = g).
    { clear -Hk. induction fs as [|h fs IHf]; intros f g Hf Hg E; [destruct Hf|]. cbn [map] in Hk. inversion Hk as [|? ? U V]; subst.
      destruct Hf as [->|Hf], Hg as [->|Hg]; auto; exfalso; apply U; [rewrite E|rewrite <- E]; now apply in_map. }
    destruct (Hj a j (or_introl eq_refl)) as [(f & cur & x & (F1 & F2 & <-) & Hc & Hr)|Hno].
    + destruct (IH (aset (f_key f) x o) D2) as (o' & A & B & C & E).
      * intros a' j' Hi. destruct (Hj a' j' (or_intror Hi)) as [(g & cur' & y & G & Hc' & Hr')|K]; [left|now right].
        exists g, cur', y. split; auto. split; auto. rewrite afind_aset_other; auto. intro K.
        destruct G as (G1 & G2 & G3). assert (g = f) by auto. subst g. apply D1. rewrite G3. now apply (in_map fst) in Hi.
      * exists o'. split; [|split; [|split]].
        -- eapply rm_known; eauto. intros g G1 G2 G3. apply Hinj; split; auto.
        -- rewrite B, akeys_aset. unfold ahas. now rewrite Hc.
        -- intros g a' j' cur' G Hi Hc'. destruct Hi as [Hi|Hi].
           ++ injection Hi as <- <-. assert (g = f) by (apply Hinj; [split; auto|exact G]). subst g. rewrite Hc in Hc'. injection Hc' as <-.
              exists x. split; auto. rewrite E; [apply afind_aset_same|]. intros h a' j' (G1 & G2 & G3) Hi' Hh.
              assert (h = f) by auto. subst h. apply D1. rewrite G3. now apply (in_map fst) in Hi'.
           ++ apply (C g a' j' cur' G Hi). rewrite afind_aset_other; auto. intro K. destruct G as (G1 & G2 & G3).
              assert (g = f) by auto. subst g. apply D1. rewrite G3. now apply (in_map fst) in Hi.
        -- intros k K. rewrite E; [|intros g a' j' G Hi; apply (K g a' j' G); now right]. rewrite afind_aset_other; auto. intros ->.
           eapply (K f); [split; eauto|now left|reflexivity].
    + destruct (IH o D2) as (o' & A & B & C & E).
      * intros a' j' Hi. apply Hj. now right.
      * exists o'. split; [|split; [|split]]; auto.
        -- apply rm_unknown; auto. intros f F1 F2 F3. apply (Hno f). split; auto.
        -- intros f a' j' cur G [Hi|Hi] Hc; [|now apply (C f a' j' cur)]. injection Hi as <- <-. destruct (Hno f G).
        -- intros k K. apply E. intros f a' j' G Hi. apply (K f a' j' G). now right.
Qed.

Theorem c41_object_fields : forall (op : ropts) (e : env) (t : nat) (fs : list field) (ini o : list (str * val)) (kjs : list (str * json)) (s rest : str),
  env_ok e -> nth_error e t = Some (DObj fs ini) -> NoDup (map f_key fs) -> NoDup (map fst kjs) ->
  (forall a j, In (a, j) kjs -> (exists f cur x, named fs a f /\ afind (f_key f) o = Some cur /\ reads e (f_type f) cur j x) \/
                                (forall f, ~ named fs a f)) ->
  json_text (dia op) (JObj kjs) s rest ->
  exists o', akeys o' = akeys o /\
    (forall f a j cur, named fs a f -> In (a, j) kjs -> afind (f_key f) o = Some cur ->
       exists x, reads e (f_type f) cur j x /\ afind (f_key f) o' = Some x) /\
    (forall k, (forall f a j, named fs a f -> In (a, j) kjs -> f_key f <> k) -> afind k o' = afind k o) /\
    exists steps, forall fuel, (steps <= fuel)%nat ->
      exists r, parse_text fuel op e t (VObj o) s = Ok (VObj o', r) /\ rerr r = None /\ rin r = rest.
Proof.
  intros op e t fs ini o kjs s rest He Ht Hk Hd Hj Hs. destruct (He t _ Ht) as [Hn _].
  destruct (members_exist e fs kjs o Hn Hk Hd Hj) as (o' & A & B & C & D).
  exists o'. split; [exact B|]. split; [exact C|]. split; [exact D|]. apply (parse_text_ok op e t (VObj o) (JObj kjs)); auto.
  - apply nth_error_Some. congruence.
  - eapply rd_obj; eauto.
  - now constructor.
Qed.
Print Assumptions c41_object_fields.

(* Any document, repeated members included: the members are read one after the other
   ([reads_members]). *)
Theorem c41_document_read : forall (op : ropts) (e : env) (t : nat) (v v' : val) (j : json) (s rest : str),
  env_ok e -> (t < length e)%nat -> reads e t v j v' -> whole_text (dia op) j s rest ->
  exists steps, forall fuel, (steps <= fuel)%nat ->
    exists r, parse_text fuel op e t v s = Ok (v', r) /\ rerr r = None /\ rin r = rest.
Proof. intros. eapply parse_text_ok; eauto. Qed.
Print Assumptions c41_document_read.

(* Whatever the text is, well formed or not: what a list contains stays, a map loses
   no key, and a class only changes in its non skipped fields. *)
Lemma array_rel {S : Type} (Rel : S -> S -> Prop) (fn : nat -> S -> reader -> outcome (S * reader)) :
  (forall s, Rel s s) -> (forall a b c, Rel a b -> Rel b c -> Rel a c) ->
  (forall i s r s' r', fn i s r = Ok (s', r') -> Rel s s') ->
  forall fuel s r s' r', parse_array fuel fn s r = Ok (s', r') -> Rel s s'.
Proof.
  intros Rr Rt Hf.
  assert (L : forall fuel i s r s' r', array_loop fuel fn i s r = Ok (s', r') -> Rel s s').
  { induction fuel as [|f IH]; intros i s r s' r' E; [discriminate|]. cbn [array_loop] in E. destruct (rok r).
    - apply bind_ok in E as ([s1 r1] & E1 & E). apply bind_ok in E as ([t r2] & E2 & E). apply Hf in E1.
      destruct (same_type t TArrE); [injection E as <- _; exact E1|]. apply IH in E. eauto.
    - injection E as <- _. auto. }
  intros fuel s r s' r' E. unfold parse_array in E. apply bind_ok in E as ([t r1] & E1 & E). destruct (same_type t TNull); [injection E as <- _; auto|].
  apply bind_ok in E as ([t2 r2] & E2 & E). destruct (same_type t2 TArrE); [|eauto].
  apply bind_ok in E as ([t3 r3] & E3 & E). injection E as <- _. auto.
Qed.
Lemma object_rel {S : Type} (Rel : S -> S -> Prop) (fn : str -> S -> reader -> outcome (S * reader)) :
  (forall s, Rel s s) -> (forall a b c, Rel a b -> Rel b c -> Rel a c) ->
  (forall i s r s' r', fn i s r = Ok (s', r') -> Rel s s') ->
  forall fuel s r s' r', parse_object fuel fn s r = Ok (s', r') -> Rel s s'.
Proof.
  intros Rr Rt Hf.
  assert (L : forall fuel s r s' r', object_loop fuel fn s r = Ok (s', r') -> Rel s s').
  { induction fuel as [|f IH]; intros s r s' r' E; [discriminate|]. cbn [object_loop] in E. destruct (rok r).
    - apply bind_ok in E as ([t0 r0] & E0 & E). apply bind_ok in E as (k & Ek & E). apply bind_ok in E as ([t1 r1] & E1 & E).
      apply bind_ok in E as ([s1 r3] & E3 & E). apply bind_ok in E as ([t r2] & E2 & E). apply Hf in E3.
      destruct (same_type t TObjE); [injection E as <- _; exact E3|]. apply IH in E. eauto.
    - injection E as <- _. auto. }
  intros fuel s r s' r' E. unfold parse_object in E. apply bind_ok in E as ([t r1] & E1 & E). destruct (same_type t TNull); [injection E as <- _; auto|].
  apply bind_ok in E as ([t2 r2] & E2 & E). destruct (same_type t2 TObjE); [|eauto].
  apply bind_ok in E as ([t3 r3] & E3 & E). injection E as <- _. auto.
Qed.
Lemma parse_text_inv fuel o e t v s v' r : parse_text fuel o e t v s = Ok (v', r) -> exists mv, parse_t fuel e t v (reader_init o s) = Ok (v', mv, r).
Proof.
  unfold parse_text. intro E. apply bind_ok in E as (c & _ & E). apply bind_ok in E as ([[x mv] r1] & E1 & E). injection E as <- <-. eauto.
Qed.

Theorem c41_list_never_shrinks : forall fuel (o : ropts) (e : env) (t i : nat) (l : list val) (s : str) (v' : val) (r : reader),
  nth_error e t = Some (DList i) -> parse_text fuel o e t (VList l) s = Ok (v', r) -> exists xs, v' = VList (l ++ xs).
Proof.
  intros fuel o e t i l s v' r Ht E. apply parse_text_inv in E as (mv & E). destruct fuel as [|f]; [discriminate|]. cbn [parse_t] in E. rewrite Ht in E.
  apply bind_ok in E as ([l' r1] & E1 & E). injection E as <- _ _.
  apply (array_rel (fun a b => exists xs, b = a ++ xs)) in E1.
  - destruct E1 as (xs & ->). now exists xs.
  - intro a. exists []. now rewrite app_nil_r.
  - intros a b c (x & ->) (y & ->). exists (x ++ y). now rewrite app_assoc.
  - intros k a r0 b r' H. cbv beta in H. apply bind_ok in H as ([[x mv'] r2] & _ & H). destruct (rok r2).
    + destruct mv'; [discriminate|]. injection H as <- _. eauto.
    + injection H as <- _. exists []. now rewrite app_nil_r.
Qed.
Print Assumptions c41_list_never_shrinks.

Theorem c41_map_keeps_keys : forall fuel (o : ropts) (e : env) (t i : nat) (m : list (str * val)) (s : str) (v' : val) (r : reader),
  nth_error e t = Some (DMap i) -> parse_text fuel o e t (VMap m) s = Ok (v', r) ->
  exists m', v' = VMap m' /\ forall k, In k (akeys m) -> In k (akeys m').
Proof.
  intros fuel o e t i l s v' r Ht E. apply parse_text_inv in E as (mv & E). destruct fuel as [|f]; [discriminate|]. cbn [parse_t] in E. rewrite Ht in E.
  apply bind_ok in E as ([l' r1] & E1 & E). injection E as <- _ _. exists l'. split; [reflexivity|].
  refine (object_rel (fun a b => forall k, In k (akeys a) -> In k (akeys b)) _ _ _ _ _ _ _ _ _ E1); auto.
  intros k a r0 b r' H. cbv beta in H. apply bind_ok in H as ([[x mv'] r2] & _ & H). destruct (rok r2).
  - destruct mv'; [discriminate|]. injection H as <- _. intros k' Hk'.
    clear -Hk'. induction a as [|[k1 v1] a IH]; [destruct Hk'|]. cbn [map_set]. destruct (str_eqb k k1) eqn:E1.
    + apply str_eqb_eq in E1. subst. cbn in *. exact Hk'.
    + destruct (str_ltb k k1); cbn [akeys map fst In] in *; [tauto|]. destruct Hk' as [|Hk']; [tauto|]. right. now apply IH.
  - injection H as <- _. auto.
Qed.
Print Assumptions c41_map_keeps_keys.

Theorem c41_object_frame : forall fuel (op : ropts) (e : env) (t : nat) (fs : list field) (ini o : list (str * val)) (s : str) (v' : val) (r : reader),
  nth_error e t = Some (DObj fs ini) -> parse_text fuel op e t (VObj o) s = Ok (v', r) ->
  exists o', v' = VObj o' /\
    forall k, (forall f, In f fs -> f_skip f = false -> f_key f <> k) -> afind k o' = afind k o.
Proof.
  intros fuel o e t fs ini l s v' r Ht E. apply parse_text_inv in E as (mv & E). destruct fuel as [|f]; [discriminate|]. cbn [parse_t] in E. rewrite Ht in E.
  apply bind_ok in E as ([l' r1] & E1 & E). injection E as <- _ _. exists l'. split; [reflexivity|].
  refine (object_rel (fun a b => forall k, (forall f, In f fs -> f_skip f = false -> f_key f <> k) -> afind k b = afind k a) _ _ _ _ _ _ _ _ _ E1); auto.
  - intros a b c A B k K. rewrite (B k K). auto.
  - intros k a r0 b r' H. cbv beta in H. destruct (find_alias fs k) as [fd|] eqn:F.
    + apply bind_ok in H as ([[x mv'] r2] & _ & H). injection H as <- _. intros k' K. rewrite afind_aset_other; auto.
      intros ->. unfold find_alias in F. apply find_some in F as [F _]. apply filter_In in F as [F1 F2]. apply (K fd F1); auto. now destruct (f_skip fd).
    + apply bind_ok in H as (r2 & _ & H). injection H as <- _. auto.
Qed.
Print Assumptions c41_object_frame.

(* Examples: a second occurrence of a field, an unknown member with a nested value,
   and a list that already has an element. *)
Example c41_example_object : exists r,
  parse_text 50 ropts_default box_env 0 (box (lit "old") 3 [a_box] [(lit "k", VBool true)])
    (lit "{" ++ q (lit "name") ++ lit ":[1,{}]," ++ q (lit "n") ++ lit ":" ++ q (lit "new") ++ lit "," ++
     q (lit "in") ++ lit ":[{}]," ++ q (lit "on") ++ lit ":{" ++ q (lit "a") ++ lit ":false," ++ q (lit "a") ++ lit ":true}}") =
    Ok (box (lit "new") 3 [a_box; box [] 0 [] []] [(lit "a", VBool true); (lit "k", VBool true)], r) /\ rerr r = None /\ rin r = [].
Proof. eexists. wit. Qed.

(* An integer literal does not read into a double, and null in a list of raw
   pointers is fatal; null into a raw pointer field leaves it unchanged. *)
Theorem c41_int_into_double_refuted :
  parse_text 10 ropts_default [DFloat true] 0 (VFloat (lit "0")) (lit "1 ") = Abort.
Proof. vm_compute. reflexivity. Qed.
Print Assumptions c41_int_into_double_refuted.
Theorem c41_null_raw_pointer_refuted :
  parse_text 10 ropts_default [DList 1; DPtr false 2; DInt true] 0 (VList []) (lit "[null]") = Abort /\
  exists r, parse_text 10 ropts_default
    [DObj [mkF (lit "p") 1 false [] false] [(lit "p", VPtr None)]; DPtr false 2; DInt true] 0
    (VObj [(lit "p", VPtr (Some (VInt 4)))]) (lit "{" ++ q (lit "p") ++ lit ":null}") =
    Ok (VObj [(lit "p", VPtr (Some (VInt 4)))], r) /\ rerr r = None.
Proof. split; [vm_compute; reflexivity|]. eexists. wit. Qed.
Print Assumptions c41_null_raw_pointer_refuted.

(* ==== C49 ==== *)
(* Printing an object of a class: exactly the fields that are not omitted (skip, or
   empty when that is asked for by the field or by compact mode), sorted by name,
   each under its alias if it has one and with its value as it prints by itself. *)
Lemma shows_members_inv e c o sel kjs : shows_members e c o sel kjs ->
  exists js, kjs = combine (map json_name sel) js /\
    Forall2 (fun f j => exists x, afind (f_key f) o = Some x /\ shows e c (f_type f) x j) sel js.
Proof.
  induction 1 as [|o f x sel j kjs Hx Hs _ (js & -> & Hf)]; [exists []; split; [reflexivity|constructor]|].
  exists (j :: js). split; [reflexivity|]. constructor; eauto.
Qed.
Theorem c49_printed_fields : forall (wo : wopts) (d : dialect) (e : env) (t : nat) (fs : list field) (ini o : list (str * val)),
  env_ok e -> no_void e -> nth_error e t = Some (DObj fs ini) -> typed e t (VObj o) ->
  names_ok (str_ok wo d) e -> all_strings (str_ok wo d) (VObj o) ->
  (w_pretty wo = true -> (vdepth (VObj o) <= 1024)%nat) ->
  exists (sel : list field) (js : list json) (text : str),
    sorted (map json_name sel) /\
    (forall f, In f sel <-> In f fs /\ exists x, afind (f_key f) o = Some x /\ ~ omitted (w_compact wo) f x) /\
    Forall2 (fun f j => exists x, afind (f_key f) o = Some x /\ shows e (w_compact wo) (f_type f) x j) sel js /\
    json_text d (JObj (combine (map json_name sel) js)) text [] /\
    exists steps, forall fuel, (steps <= fuel)%nat -> print_text fuel wo e t (VObj o) = Ok (text, false).
Proof.
  intros wo d e t fs ini o He Hv Ht Hty Hn Ha Hd.
  destruct (typed_shows e (w_compact wo) He t _ Hty) as (j & Hsh & Hst & Hde).
  assert (Hlt : t < length e) by (apply nth_error_Some; congruence).
  destruct (print_text_ok wo d e t (VObj o) j He Hv Hlt Hty Hsh) as (x & Hx & Hp); auto. { intro H. specialize (Hd H). lia. }
  inversion Hsh as [| | | | | | | |t0 fs0 ini0 o0 sel kjs Ht0 Hso Hex Hsel Hsub Hm]; subst. rewrite Ht in Ht0. injection Ht0 as <- <-.
  destruct (shows_members_inv _ _ _ _ _ Hm) as (js & -> & Hf).
  exists sel, js, x. split; [exact Hso|]. split; [|split; [exact Hf|split; [|exact Hp]]].
  - intro f. split.
    + intro H. split; [auto|]. destruct (Hex f (Hsub f H)) as (y & Hy). exists y. split; auto. now apply (Hsel f y (Hsub f H) Hy).
    + intros (H & y & Hy & Ho). now apply (Hsel f y H Hy).
  - inversion Hx; auto. destruct H.
Qed.
Print Assumptions c49_printed_fields.

Example c49_example :
  print_text 50 wopts_default box_env 0 (box (lit "t") 0 [] []) =
    Ok (lit "{" ++ q (lit "in") ++ lit ":[]," ++ q (lit "n") ++ lit ":" ++ q (lit "t") ++ lit "," ++ q (lit "size") ++ lit ":0}", false) /\
  print_text 50 (mkWO false true true true) box_env 0 (box (lit "t") 0 [] []) =
    Ok (lit "{" ++ q (lit "n") ++ lit ":" ++ q (lit "t") ++ lit "}", false) /\
  exists sel js text, sorted (map json_name sel) /\
    json_text (dia ropts_default) (JObj (combine (map json_name sel) js)) text [] /\
    exists steps, forall fuel, (steps <= fuel)%nat -> print_text fuel wopts_default box_env 0 (box (lit "t") 0 [] []) = Ok (text, false).
Proof.
  split; [vm_compute; reflexivity|]. split; [vm_compute; reflexivity|].
  destruct (c49_printed_fields wopts_default (dia ropts_default) box_env 0 _ _ _ (proj1 box_simple) (simple_no_void _ box_simple) eq_refl
    (box_typed (lit "t") 0 [] [] ltac:(unfold int64; lia) ltac:(intros x []) (NoDup_nil _) ltac:(intros k x [])) box_names ltac:(strs) ltac:(discriminate))
    as (sel & js & text & A & _ & _ & C & D).
  exists sel, js, text. auto.
Qed.

(* Two fields under one alias (which the parser rejects): both are printed, with the
   value of the second one. *)
Theorem c49_duplicate_alias_refuted :
  let e := [DObj [mkF (lit "a") 1 false (lit "x") false; mkF (lit "b") 1 false (lit "x") false] [(lit "a", VInt 0); (lit "b", VInt 0)]; DInt true] in
  print_text 10 wopts_default e 0 (VObj [(lit "a", VInt 1); (lit "b", VInt 2)]) =
    Ok (lit "{" ++ q (lit "x") ++ lit ":2," ++ q (lit "x") ++ lit ":2}", false) /\
  parse_text 10 ropts_default e 0 (VObj [(lit "a", VInt 1); (lit "b", VInt 2)]) (lit "{}") = Abort.
Proof. split; vm_compute; reflexivity. Qed.
Print Assumptions c49_duplicate_alias_refuted.

(* ==== C36, continued: a text is the text of one document only, so that the claims
   above about a text of some document determine the document ==== *)
Lemma more_prefix {A : Type} (f : A -> list atok) (E : atok) : E <> ASep -> forall l l' a b,
  (forall x, In x l -> forall y a b, f x ++ a = f y ++ b -> x = y /\ a = b) ->
  more f l ++ E :: a = more f l' ++ E :: b -> l = l' /\ a = b.
Proof.
  intro HE. induction l as [|x l IH]; intros [|y l'] a b Hf H; cbn [more app] in H.
  - injection H as <-. auto.
  - injection H as H _. congruence.
  - injection H as H _. congruence.
  - injection H as H. rewrite <- ?app_assoc in H. apply Hf in H as [<- H]; [|now left].
    apply IH in H as [<- <-]; auto. intros z Hz. apply Hf. now right.
Qed.
Lemma list_prefix {A : Type} (f : A -> list atok) (E : atok) : E <> ASep -> forall l l' a b,
  (forall x, exists t ts, f x = t :: ts /\ t <> E /\ t <> ASep) ->
  (forall x, In x l -> forall y a b, f x ++ a = f y ++ b -> x = y /\ a = b) ->
  sep_by (map f l) ++ E :: a = sep_by (map f l') ++ E :: b -> l = l' /\ a = b.
Proof.
  intros HE l l' a b Hh Hf H. destruct l as [|x l], l' as [|y l'].
  - injection H as <-. auto.
  - rewrite sep_by_more in H. destruct (Hh y) as (t & ts & K & K1 & _). rewrite K in H. injection H as H _. congruence.
  - rewrite sep_by_more in H. destruct (Hh x) as (t & ts & K & K1 & _). rewrite K in H. injection H as H _. congruence.
  - rewrite !sep_by_more, <- ?app_assoc in H. apply Hf in H as [<- H]; [|now left].
    apply more_prefix in H as [<- <-]; auto. intros z Hz. apply Hf. now right.
Qed.
Lemma toks_head j : exists t ts, toks j = t :: ts /\ t <> AArrE /\ t <> AObjE /\ t <> ASep.
Proof. destruct j; do 2 eexists; (split; [reflexivity|]); repeat split; discriminate. Qed.
Lemma toks_prefix : forall n j, (jsize j < n)%nat -> forall j' a b, toks j ++ a = toks j' ++ b -> j = j' /\ a = b.
Proof.
  induction n as [|n IH]; intros j Hn j' a b H; [lia|].
  destruct j as [|x|z|x|s|l|l], j' as [|x'|z'|x'|s'|l'|l']; cbn [toks app] in H; try discriminate H;
    try (injection H; intros; subst; auto; fail).
  - injection H as H. rewrite <- !app_assoc in H. cbn [app] in H.
    apply (list_prefix toks AArrE) in H as [<- <-]; auto; [discriminate| |].
    + intros x. destruct (toks_head x) as (t & ts & A & B & C & D). eauto.
    + intros x Hx. apply IH. pose proof (jsize_in_arr l x Hx). lia.
  - injection H as H. rewrite <- !app_assoc in H. cbn [app] in H.
    change (fun kv : str * json => AStr (fst kv) :: AKey :: toks (snd kv)) with mtoks in H.
    apply (list_prefix mtoks AObjE) in H as [<- <-]; auto; [discriminate| |].
    + intros x. unfold mtoks. do 2 eexists. split; [reflexivity|]. split; discriminate.
    + intros [k x] Hx [k' y] a' b' K. unfold mtoks in K. cbn [fst snd app] in K. injection K as <- K.
      apply IH in K as [<- <-]; auto. pose proof (jsize_in_obj l _ Hx) as L. cbn [snd] in L. lia.
Qed.
Lemma sep_by_forall (P : atok -> Prop) l : P ASep -> Forall (Forall P) l -> Forall P (sep_by l).
Proof.
  intros HP. induction l as [|x [|y l] IH]; intro H; [constructor|inversion H; auto|]. inversion H as [|? ? A B]; subst.
  change (sep_by (x :: y :: l)) with (x ++ ASep :: sep_by (y :: l)). apply Forall_app. split; auto.
Qed.
Lemma json_ok_int64 j : json_ok j -> Forall tok_int64 (toks j).
Proof.
  induction 1 as [|b|z Hz|x Hx|s|l Hl IH|l Hl IH]; try (repeat constructor; fail).
  - repeat constructor; auto; apply Hz.
  - cbn [toks]. constructor; [exact I|]. apply Forall_app. split; [|repeat constructor]. apply sep_by_forall; [exact I|].
    apply Forall_forall. intros x Hx. apply in_map_iff in Hx as (j & <- & Hj). now apply IH.
  - cbn [toks]. constructor; [exact I|]. apply Forall_app. split; [|repeat constructor]. apply sep_by_forall; [exact I|].
    apply Forall_forall. intros x Hx. apply in_map_iff in Hx as ([k j] & <- & Hj). repeat constructor. eapply IH; eauto.
Qed.
Lemma observe_app n : forall m r ts r', observe (n + m) r = Ok (ts, r') -> exists a r1 b, observe n r = Ok (a, r1) /\ observe m r1 = Ok (b, r') /\ ts = a ++ b.
Proof.
  induction n as [|n IH]; intros m r ts r' H.
  - exists [], r, ts. auto.
  - cbn [observe Nat.add] in *. apply bind_ok in H as ([t r1] & E1 & H). apply bind_ok in H as ([ts1 r2] & E2 & H). injection H as <- <-.
    apply IH in E2 as (a & r3 & b & A & B & ->). rewrite E1. cbn [bind]. rewrite A. cbn [bind]. do 3 eexists. split; [reflexivity|]. split; [exact B|reflexivity].
Qed.
Theorem c36_document_unambiguous : forall (d : dialect) (j j' : json) (s rest rest' : str),
  json_ok j -> json_ok j' -> json_text d j s rest -> json_text d j' s rest' -> j = j' /\ rest = rest'.
Proof.
  assert (G : forall d j j' s rest rest', json_ok j -> json_ok j' -> json_text d j s rest -> json_text d j' s rest' ->
    (length (toks j) <= length (toks j'))%nat -> j = j' /\ rest = rest').
  { intros [dc du dv] j j' s rest rest' Hj Hj' Ht Ht' Hl.
    change (mkDialect dc du dv) with (dia (mkOpts dc du dv)) in Ht, Ht'. unfold json_text in *.
    destruct (c36_tokens_of_text _ _ _ _ Ht (json_ok_int64 _ Hj)) as (r & E & _ & Hr).
    destruct (c36_tokens_of_text _ _ _ _ Ht' (json_ok_int64 _ Hj')) as (r' & E' & _ & Hr').
    replace (length (toks j')) with (length (toks j) + (length (toks j') - length (toks j)))%nat in E' by lia.
    apply observe_app in E' as (a & r1 & b & A & B & K). rewrite E in A. apply ok_inj in A. apply pair_equal_spec in A as [<- <-].
    assert (K' : toks j ++ b = toks j' ++ []) by now rewrite app_nil_r.
    apply (toks_prefix _ j (Nat.lt_succ_diag_r _)) in K' as [-> ->]. split; auto.
    rewrite Nat.sub_diag in B. cbn in B. apply ok_inj in B. injection B as <-. congruence. }
  intros d j j' s rest rest' Hj Hj' Ht Ht'. destruct (Nat.le_ge_cases (length (toks j)) (length (toks j'))) as [L|L].
  - eapply G; eauto.
  - destruct (G d j' j s rest' rest) as [-> ->]; auto.
Qed.
Print Assumptions c36_document_unambiguous.
