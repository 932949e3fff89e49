(* ProofCodec2.v - a lookup ends, fails only for a reason, and leaves a table in order. *)
From Coq Require Import Relations Sorting.Permutation Sorting.Sorted.
From Coq Require String. Import String.StringSyntax.
From Verif Require Import Base Dec ModelJson ModelJsonW ModelJsonT SpecJsonT SpecCodec ModelCodec ProofCodec1.

Definition good_result (s : side) (W : list desc) (P : list nat) (t : nat) (st : table) (res : table * got) : Prop :=
  match snd res with
  | Got a => okp s W P (fst res) /\ grows st (fst res) /\ cached (fst res) t a /\
             (forall u b, cached (fst res) u b -> cached st u b \/ (reach s W t u /\ well s W u))
  | Failed => exists u, reach s W t u /\ ~ well s W u
  | NoFuel => False
  end.

Lemma okp_enter s W P st t k : okp s W P st -> cfind t (t_cache st) = None ->
  okp s W (t :: P) (mkT ((t, length (t_objs st)) :: t_cache st) (t_objs st ++ [blank_codec k])).
Proof.
  intros [(F1 & F2 & F3) H] Hc. apply cfind_None in Hc. split; [split; [|split]|].
  - cbn. now constructor.
  - cbn. constructor; [|exact F2]. rewrite <- F3. lia.
  - intro x. cbn [t_cache t_objs map snd In]. rewrite app_length, <- F3. cbn. lia.
  - intros u b Hu Hn. destruct Hu as [Hu|Hu]; [injection Hu as <- <-; exfalso; apply Hn; now left|].
    destruct (H u b Hu) as (c & Hc1 & Hc2); [intro Hp; apply Hn; now right|].
    exists c. split.
    + cbn. rewrite nth_error_app1; [exact Hc1|]. apply nth_error_Some. congruence.
    + eapply right_mono; [|exact Hc2]. exists [(t, length (t_objs st))]. reflexivity.
Qed.

Lemma grows_enter st t k : grows st (mkT ((t, length (t_objs st)) :: t_cache st) (t_objs st ++ [blank_codec k])).
Proof.
  split; [now exists [(t, length (t_objs st))]|]. intros a Ha. cbn. now rewrite nth_error_app1.
Qed.

Lemma okp_put_open s W P st t a g : okp s W (t :: P) st -> cached st t a -> okp s W (t :: P) (put a g st).
Proof.
  intros [F H] Hc. split; [now apply put_fine|]. intros u b Hu Hn.
  destruct (H u b Hu Hn) as (c & H1 & H2). exists c. split; [|exact H2].
  cbn. rewrite nth_set_other; [exact H1|]. intros ->. apply Hn. left. eapply fine_inj; eauto.
Qed.

Lemma okp_finish s W P st t a c g : okp s W (t :: P) st -> cached st t a -> nth_error (t_objs st) a = Some c ->
  right s W st t (g c) -> okp s W P (put a g st).
Proof.
  intros [F H] Hc Ho Hr. split; [now apply put_fine|]. intros u b Hu Hn.
  destruct (Nat.eq_dec u t) as [->|Hut].
  - assert (b = a) by (eapply fine_fun; eauto). subst b. exists (g c). split; [|exact Hr].
    cbn. now apply nth_set_same.
  - destruct (H u b Hu) as (c' & H1 & H2); [intros [E|E]; [congruence|contradiction]|]. exists c'. split; [|exact H2].
    cbn. rewrite nth_set_other; [exact H1|]. intros ->. apply Hut. eapply fine_inj; eauto.
Qed.

Lemma okp_done s W P st t a c : okp s W (t :: P) st -> cached st t a -> nth_error (t_objs st) a = Some c ->
  right s W st t c -> okp s W P st.
Proof.
  intros [F H] Hc Ho Hr. split; [exact F|]. intros u b Hu Hn.
  destruct (Nat.eq_dec u t) as [->|Hut].
  - assert (b = a) by (eapply fine_fun; eauto). subst b. now exists c.
  - apply (H u b Hu). intros [E|E]; [congruence|contradiction].
Qed.

(* ---- objects ---- *)
Definition built (s : side) (st : table) (done : list field) (c : codec) : Prop :=
  c_kind c = KObj /\
  (forall n, afind n (c_keys c) = option_map f_key (find (fun f => str_eqb n (f_name f)) (rev done))) /\
  Forall2 (fun f e => fst e = f_key f /\ cached st (f_type f) (snd e)) done (c_fields c) /\
  (s = Printing -> c_skips c = map f_name (filter f_skipempty done)).

Lemma built_mono s st st' l c : (exists new, t_cache st' = new ++ t_cache st) -> built s st l c -> built s st' l c.
Proof.
  intros Hg (A & B & C & D). repeat (split; [assumption|]). split; [|exact D].
  clear - C Hg. induction C as [|f e l m [H1 H2] _ IH]; constructor; [|exact IH]. split; [exact H1|]. eapply grows_cached; eauto.
Qed.

Lemma fields_keys st l (m : list (str * nat)) :
  Forall2 (fun f e => fst e = f_key f /\ cached st (f_type f) (snd e)) l m -> akeys m = map f_key l.
Proof. induction 1 as [|f e l m [H _] _ IH]; cbn; [reflexivity|]. unfold akeys in *. cbn. now rewrite H, IH. Qed.

Definition shown_of (fs : list field) : list field := filter (fun f => negb (f_skip f)) fs.

Lemma find_none_names : forall l n, find (fun f => str_eqb n (f_name f)) l = None <-> ~ In n (map f_name l).
Proof.
  induction l as [|f l IH]; cbn; intros n; [tauto|]. destruct (str_eqb n (f_name f)) eqn:E.
  - apply str_eqb_eq in E. split; [discriminate|]. intro H. exfalso. apply H. now left.
  - rewrite IH. split; [intros H [H1|H1]; [|tauto]|tauto]. rewrite H1 in E.
    rewrite str_eqb_refl in E. discriminate.
Qed.

Lemma NoDup_app_comm_snoc_codec (l : list str) x : NoDup l -> ~ In x l -> NoDup (l ++ [x]).
Proof.
  intros H Hx. rewrite <- (rev_involutive (l ++ [x])), rev_app_distr. apply NoDup_rev. cbn. constructor.
  - now rewrite <- in_rev.
  - now apply NoDup_rev.
Qed.

Section Loop.
Context (s : side) (W : list desc) (P : list nat) (t : nat) (a : nat) (n : nat).
Context (gt : nat -> table -> table * got).
Context (Hgt : forall u st, okp s W (t :: P) st -> length (fresh_types W st) < n -> good_result s W (t :: P) u st (gt u st)).

Definition loop_result (done fs : list field) (st : table) (res : table * got) : Prop :=
  match snd res with
  | Got x => x = a /\ okp s W (t :: P) (fst res) /\ grows_at a st (fst res) /\
      (exists c, nth_error (t_objs (fst res)) a = Some c /\ built s (fst res) (done ++ shown_of fs) c /\
                 (s = Printing -> c_sorted c = sort_strs (map f_name (done ++ shown_of fs)))) /\
      (s = Reading -> NoDup (map f_name (done ++ shown_of fs))) /\
      (forall u b, cached (fst res) u b -> cached st u b \/
          (exists f, In f (shown_of fs) /\ reach s W (f_type f) u /\ well s W u))
  | Failed => (exists f u, In f (shown_of fs) /\ reach s W (f_type f) u /\ ~ well s W u) \/
              (s = Reading /\ ~ NoDup (map f_name (done ++ shown_of fs)))
  | NoFuel => False
  end.

Lemma loop_good : forall fs done st c,
  okp s W (t :: P) st -> cached st t a -> nth_error (t_objs st) a = Some c -> built s st done c ->
  (s = Printing -> c_sorted c = map f_name done) ->
  (s = Reading -> NoDup (map f_name done)) ->
  NoDup (map f_key (done ++ shown_of fs)) ->
  length (fresh_types W st) < n ->
  loop_result done fs st (init_fields gt s a fs st).
Proof.
  induction fs as [|f fs IH]; intros done st c Ho Hc Hn Hb Hs Hd Hk Hf; cbn [init_fields].
  - unfold loop_result. cbn [snd fst]. cbn [shown_of filter]. rewrite app_nil_r.
    split; [reflexivity|]. destruct s.
    + split; [exact Ho|]. split; [apply grows_grows_at, grows_refl|]. split; [|split; [exact Hd|intros; now left]].
      exists c. split; [exact Hn|]. split; [exact Hb|discriminate].
    + split; [now apply okp_put_open|]. split; [apply grows_at_put|]. split; [|split; [discriminate|intros; now left]].
      exists (sort_names c). split; [cbn; now apply nth_set_same|]. split; [|intros _; cbn; now rewrite Hs].
      destruct Hb as (A & B & C & D). repeat (split; [assumption|]). exact D.
  - destruct (f_skip f) eqn:Esk.
    + pose proof (IH done st c Ho Hc Hn Hb Hs Hd) as IH'. unfold loop_result in *.
      replace (shown_of (f :: fs)) with (shown_of fs) in *; [now apply IH'|]. cbn. now rewrite Esk.
    + assert (Hsh : shown_of (f :: fs) = f :: shown_of fs) by (cbn; now rewrite Esk).
      destruct (taken s f a st) eqn:Et.
      * unfold loop_result. cbn [snd]. right. unfold taken in Et. rewrite Hn in Et. destruct s.
        -- split; [reflexivity|]. rewrite Hsh, map_app. cbn. intro Hnd. apply NoDup_remove_2 in Hnd. apply Hnd.
           apply in_app_iff. left. apply ahas_In in Et. destruct Hb as (_ & B & _).
           apply In_akeys_afind in Et. destruct Et as [x Ex]. rewrite B in Ex.
           destruct (find (fun f0 => str_eqb (f_name f) (f_name f0)) (rev done)) as [y|] eqn:Ef; [|discriminate].
           apply find_some in Ef. destruct Ef as [E1 E2]. apply str_eqb_eq in E2. rewrite E2. apply in_map. now apply in_rev.
        -- exfalso. apply ahas_In in Et. destruct Hb as (_ & _ & C & _). rewrite (fields_keys _ _ _ C) in Et.
           rewrite Hsh, map_app in Hk. cbn in Hk. apply NoDup_remove_2 in Hk. apply Hk. apply in_app_iff. now left.
      * set (st1 := put a (add_key s f) st).
        assert (Ho1 : okp s W (t :: P) st1) by now apply okp_put_open.
        assert (Hf1 : length (fresh_types W st1) < n) by exact Hf.
        pose proof (Hgt (f_type f) st1 Ho1 Hf1) as HG. unfold good_result in HG.
        destruct (gt (f_type f) st1) as [st2 x] eqn:Eg. cbn [snd fst] in HG.
        destruct x as [b| |].
        -- destruct HG as (Ho2 & Hg2 & Hc2 & Hnew2).
           assert (Hn1 : nth_error (t_objs st1) a = Some (add_key s f c)) by (cbn; now apply nth_set_same).
           assert (Hn2 : nth_error (t_objs st2) a = Some (add_key s f c)).
           { destruct Hg2 as [_ Hg2]. rewrite Hg2; [exact Hn1|]. apply nth_error_Some. congruence. }
           assert (Hct2 : cached st2 t a).
           { destruct Hg2 as [Hg2 _]. eapply grows_cached; [exact Hg2|]. exact Hc. }
           assert (Hah : ahas (f_key f) (c_fields c) = false).
           { destruct (ahas (f_key f) (c_fields c)) eqn:E; [|reflexivity]. exfalso. apply ahas_In in E.
             destruct Hb as (_ & _ & C & _). rewrite (fields_keys _ _ _ C) in E.
             rewrite Hsh, map_app in Hk. cbn in Hk. apply NoDup_remove_2 in Hk. apply Hk. apply in_app_iff. now left. }
           assert (Hb2 : built s (put a (add_field f b) st2) (done ++ [f]) (add_field f b (add_key s f c))).
           { destruct (built_mono s st st2 done c) as (A & B & C & D); [destruct Hg2 as [Hg2 _]; exact Hg2|exact Hb|].
             split; [exact A|]. split; [|split].
             - intro m. cbn [c_keys add_field add_key]. rewrite rev_app_distr. cbn [rev app find].
               destruct (str_eqb m (f_name f)) eqn:Em.
               + apply str_eqb_eq in Em. subst m. now rewrite afind_aset_same.
               + rewrite afind_aset_other; [apply B|]. intros ->. rewrite str_eqb_refl in Em. discriminate.
             - cbn [c_fields add_field add_key]. rewrite Hah. apply Forall2_app; [exact C|].
               constructor; [|constructor]. split; [reflexivity|exact Hc2].
             - intro Hsp. cbn [c_skips add_field add_key]. specialize (D Hsp). rewrite Hsp. rewrite filter_app, map_app. cbn [filter].
               destruct (f_skipempty f); cbn [map]; rewrite D; [reflexivity|now rewrite app_nil_r]. }
           assert (Hnames : s = Reading -> NoDup (map f_name (done ++ [f]))).
           { intro Hsr. rewrite map_app. cbn. apply NoDup_app_comm_snoc_codec; [now apply Hd|].
             unfold taken in Et. rewrite Hn, Hsr in Et. intro Hi.
             assert (ahas (f_name f) (c_keys c) = true); [|congruence]. unfold ahas.
             destruct Hb as (_ & B & _). rewrite B.
             destruct (find (fun f0 => str_eqb (f_name f) (f_name f0)) (rev done)) eqn:Ef; [reflexivity|].
             apply find_none_names in Ef. exfalso. apply Ef. rewrite map_rev. now apply -> in_rev. }
           pose proof (IH (done ++ [f]) (put a (add_field f b) st2) (add_field f b (add_key s f c))) as IH'.
           assert (Happ : (done ++ [f]) ++ shown_of fs = done ++ shown_of (f :: fs)) by (rewrite Hsh, <- app_assoc; reflexivity).
           unfold loop_result in IH'. rewrite Happ in IH'.
           assert (HL : loop_result done (f :: fs) st (init_fields gt s a fs (put a (add_field f b) st2))).
           { unfold loop_result.
             assert (Hres := IH' (okp_put_open _ _ _ _ _ _ _ Ho2 Hct2) Hct2).
             specialize (Hres ltac:(cbn; now apply nth_set_same) Hb2).
             specialize (Hres ltac:(intro Hsp; cbn; rewrite (Hs Hsp), Hsp, map_app; reflexivity)).
             specialize (Hres Hnames Hk).
             assert (Hf2 : length (fresh_types W st2) < n).
             { destruct Hg2 as [Hg2 _]. pose proof (fresh_grows W st1 st2 Hg2). lia. }
             specialize (Hres Hf2).
             destruct (init_fields gt s a fs (put a (add_field f b) st2)) as [st3 y]. cbn [snd fst] in *.
             destruct y as [x| |]; [| |contradiction].
             - destruct Hres as (R1 & R2 & R3 & R4 & R5 & R6). split; [exact R1|]. split; [exact R2|]. split.
               { eapply grows_at_trans; [apply Ho| |apply grows_at_put with (g := add_key s f)|].
                 - apply put_fine. apply Ho.
                 - eapply grows_at_trans; [apply Ho1|apply Ho2|apply grows_grows_at; exact Hg2|].
                   eapply grows_at_trans; [apply Ho2| |apply grows_at_put with (g := add_field f b)|exact R3].
                   apply put_fine. apply Ho2. }
               split; [exact R4|]. split; [exact R5|].
               intros u b' Hu. destruct (R6 u b' Hu) as [Hu2|(f' & Hf' & Hr)].
               + destruct (Hnew2 u b' Hu2) as [Hu1|[Hu1 Hu1']]; [now left|]. right. exists f. rewrite Hsh.
                 split; [now left|]. now split.
               + right. exists f'. rewrite Hsh. split; [now right|exact Hr].
             - destruct Hres as [(f' & u & R1 & R2)|R]; [|now right]. left. exists f', u. rewrite Hsh. split; [now right|exact R2]. }
           exact HL.
        -- destruct HG as (u & Hu1 & Hu2). unfold loop_result. cbn [snd]. left. exists f, u. rewrite Hsh. split; [now left|]. now split.
        -- contradiction.
Qed.
End Loop.
