(* PropConfigKey.v - C90: the keys of a configuration file, [#]name[!type]. *)
From Coq Require String. Import String.StringSyntax.
From Verif Require Import Base ModelConfig ModelConfigStore.
Local Open Scope N_scope.

Definition bang : byte := 33.
Definition hash : byte := 35.

Lemma find_none b s : ~ In b s -> npos_find b s = None.
Proof.
  unfold npos_find. generalize 0%nat. induction s as [|c s IH]; intros i H; auto. destruct (N.eqb_spec c b) as [->|_].
  - exfalso. apply H. now left.
  - apply IH. intro Hb. apply H. now right.
Qed.
Lemma find_at b k s : ~ In b k -> npos_find b (k ++ b :: s) = Some (length k).
Proof.
  unfold npos_find. intro H. rewrite <- (Nat.add_0_l (length k)). revert H. generalize 0%nat as i.
  induction k as [|c k IH]; intros i H; cbn [app length].
  - rewrite N.eqb_refl. f_equal. lia.
  - destruct (N.eqb_spec c b) as [->|_]; [exfalso; apply H; now left|]. rewrite IH by (intro Hb; apply H; now right). f_equal. lia.
Qed.
Lemma find_split b s i : npos_find b s = Some i -> exists k t, s = k ++ b :: t /\ ~ In b k /\ i = length k.
Proof.
  unfold npos_find. intro H. enough (G : exists k t, s = k ++ b :: t /\ ~ In b k /\ i = (0 + length k)%nat) by exact G.
  revert H. generalize 0%nat as j. induction s as [|c s IH]; intros j H; [discriminate|]. destruct (N.eqb_spec c b) as [->|N].
  - injection H as <-. exists [], s. cbn. split; [reflexivity|]. split; [intros []|lia].
  - apply IH in H as (k & t & -> & Nk & ->). exists (c :: k), t. cbn. split; [reflexivity|]. split; [|lia]. intros [E|E]; [congruence|auto].
Qed.
Lemma find_none_inv b s : npos_find b s = None -> ~ In b s.
Proof.
  unfold npos_find. generalize 0%nat. induction s as [|c s IH]; intros i H; [easy|]. destruct (N.eqb_spec c b) as [->|N]; [discriminate|].
  intros [E|E]; [congruence|]. exact (IH _ H E).
Qed.
Lemma take_all (s : str) : substr s 0 (length s) = s.
Proof. unfold substr. cbn. apply firstn_all. Qed.

(* A key without the mark of a link is read as its name and its type; every such text with
   a name is accepted, and nothing else. *)
Theorem c90_plain_keys : forall (s name ty : str), (forall t, s <> hash :: t) ->
  (parse_key s = Ok (false, name, ty) <->
   name <> [] /\ ~ In bang name /\ ((s = name /\ ty = []) \/ s = name ++ [bang] ++ ty)).
Proof.
  intros s name ty Nh. unfold parse_key. destruct s as [|c s].
  - split; [discriminate|]. intros (N & _ & [(E & _)|E]); [now subst|now destruct name].
  - destruct (N.eqb_spec c 35) as [->|_]; [exfalso; eapply Nh; reflexivity|]. cbv zeta. destruct (npos_find 33 (c :: s)) as [i|] eqn:Ei.
    + pose proof (find_split _ _ _ Ei) as (k & t & Es & Nk & ->). rewrite Es.
      unfold substr. cbn [skipn]. rewrite firstn_app, Nat.sub_diag, firstn_all. cbn [firstn]. rewrite app_nil_r.
      replace (length k + 1)%nat with (length k + 1)%nat by lia. rewrite skipn_app, skipn_all2 by lia.
      replace (length k + 1 - length k)%nat with 1%nat by lia. cbn [skipn app]. split.
      * intro E. destruct k as [|x k]; [discriminate|]. injection E as <- <-. split; [discriminate|]. split; [exact Nk|]. right. reflexivity.
      * intros (N & Nb & [(E & ->)|E]).
        -- exfalso. apply Nb. rewrite <- E. apply in_app_iff. right. now left.
        -- assert (Ek : k = name /\ t = ty).
           { clear -E Nk Nb. revert name E Nb. induction k as [|x k IH]; intros [|y name] E Nb; cbn in E.
             - now injection E as ->.
             - injection E as <- _. exfalso. apply Nb. now left.
             - injection E as -> _. exfalso. apply Nk. now left.
             - injection E as -> E. destruct (IH (fun H => Nk (or_intror H)) name E (fun H => Nb (or_intror H))) as (-> & ->). auto. }
           destruct Ek as (-> & ->). destruct name; [contradiction|reflexivity].
    + rewrite take_all. rewrite skipn_all. apply find_none_inv in Ei. split.
      * intro E. injection E as <- <-. split; [discriminate|]. split; [exact Ei|]. left. auto.
      * intros (N & Nb & [(<- & ->)|E]); [reflexivity|]. exfalso. apply Ei. rewrite E. apply in_app_iff. right. now left.
Qed.
Print Assumptions c90_plain_keys.

(* A link without a type is read as the name it links. *)
Theorem c90_links : forall name, name <> [] -> ~ In bang name -> parse_key (hash :: name) = Ok (true, name, []).
Proof.
  intros name N Nb. unfold parse_key. cbn [N.eqb hash]. change (35 =? 35) with true. cbv zeta iota.
  rewrite find_none by (intros [E|E]; [discriminate|auto]). unfold substr. cbn [skipn length].
  rewrite (firstn_all2 name) by (cbn; lia). rewrite skipn_all. destruct name; [contradiction|reflexivity].
Qed.
Print Assumptions c90_links.

(* Texts without a name are rejected ... *)
Theorem c90_no_name : parse_key [] = Abort /\ parse_key [hash] = Abort /\ forall ty, parse_key (bang :: ty) = Abort.
Proof. repeat split. Qed.
Print Assumptions c90_no_name.

(* ... but a link with a type is read as a link of the name with an exclamation mark, even
   if it has no name. *)
Theorem c90_typed_link_refuted : forall name ty, ~ In bang name ->
  parse_key ([hash] ++ name ++ [bang] ++ ty) = Ok (true, name ++ [bang], ty).
Proof.
  intros name ty Nb. cbn [app]. unfold parse_key. change (hash =? 35) with true. cbv zeta iota.
  change (hash :: name ++ bang :: ty) with ((hash :: name) ++ bang :: ty).
  rewrite find_at by (intros [E|E]; [discriminate|auto]). cbn [length]. unfold substr. cbn [app skipn].
  replace (firstn (S (length name)) (name ++ bang :: ty)) with (name ++ [bang]).
  - replace (S (length name) + 1)%nat with (S (length name + 1)) by lia. cbn [skipn].
    rewrite skipn_app, skipn_all2 by lia. replace (length name + 1 - length name)%nat with 1%nat by lia. cbn [skipn app].
    destruct name; reflexivity.
  - rewrite firstn_app, firstn_all2 by lia. replace (S (length name) - length name)%nat with 1%nat by lia. reflexivity.
Qed.
Print Assumptions c90_typed_link_refuted.

Example c90_ex : parse_key (lit "host!Foo") = Ok (false, lit "host", lit "Foo") /\ parse_key (lit "#alias") = Ok (true, lit "alias", []) /\
  parse_key (lit "#alias!Foo") = Ok (true, lit "alias!", lit "Foo").
Proof. repeat split. Qed.
