(* ProofJsonG.v - the generic printer and parser with callbacks that have state *)
From Coq Require String. Import String.StringSyntax.
From Verif Require Import Base Dec ModelJson ModelJsonW ModelJsonT ModelJsonG SpecJson SpecJsonT SpecJsonG ProofJson1 ProofJson2 ProofJson3 ProofJson4 ProofJson5 ProofJson6 ProofJson8 ProofJson9 ProofJson10 ProofJsonT1 PropJsonStr PropJsonTok ProofJsonT3.
Local Open Scope outcome_scope.

(* ---- one loop for both ---- *)
Fixpoint gloop {K S : Type} (first : bool) (ks : list K)
    (item : K -> S -> writer -> outcome (S * writer)) (sfn : K -> S -> writer -> outcome bool)
    (s : S) (w : writer) : outcome (bool * S * writer) :=
  match ks with
  | [] => Ok (true, s, w)
  | k :: ks =>
    if negb (wok w) then Ok (false, s, w) else
    do sk <- sfn k s w;
    if sk then gloop first ks item sfn s w else
    do w1 <- (if first then Ok w else wnewline (push (lit ",") w));
    do (s1, w3) <- item k s w1;
    gloop false ks item sfn s1 w3
  end.
Definition member {S : Type} (pfn : str -> S -> writer -> outcome (S * writer)) (k : str) (s : S) (w : writer) : outcome (S * writer) :=
  do w2 <- format_string k w; pfn k s (wspace (push (lit ":") w2)).
Lemma gobject_gloop {S : Type} (pfn : str -> S -> writer -> outcome (S * writer)) sfn : forall ks first s w,
  gobject_loop first ks pfn sfn s w = gloop first ks (member pfn) sfn s w.
Proof.
  induction ks as [|k ks IH]; intros first s w; [reflexivity|]. cbn [gobject_loop gloop]. destruct (negb (wok w)); [reflexivity|].
  destruct (sfn k s w) as [sk| | | |]; cbn [bind]; try reflexivity. destruct sk; [apply IH|]. unfold member.
  destruct (if first then Ok w else wnewline (push (lit ",") w)) as [w1| | | |]; cbn [bind]; try reflexivity.
  destruct (format_string k w1) as [w2| | | |]; cbn [bind]; try reflexivity.
  destruct (pfn k s _) as [[s1 w3]| | | |]; cbn [bind]; try reflexivity. apply IH.
Qed.
Lemma garray_gloop {S : Type} (pfn : nat -> S -> writer -> outcome (S * writer)) sfn : forall k first i s w,
  garray_loop first i k pfn sfn s w = gloop first (seq i k) pfn sfn s w.
Proof.
  induction k as [|k IH]; intros first i s w; [reflexivity|]. cbn [garray_loop gloop seq]. destruct (negb (wok w)); [reflexivity|].
  destruct (sfn i s w) as [sk| | | |]; cbn [bind]; try reflexivity. destruct sk; [apply IH|].
  destruct (if first then Ok w else wnewline (push (lit ",") w)) as [w1| | | |]; cbn [bind]; try reflexivity.
  destruct (pfn i s w1) as [[s1 w3]| | | |]; cbn [bind]; try reflexivity. apply IH.
Qed.

Section Print.
Context {K S : Type} (wo : wopts) (d : dialect) (tk : K * json -> list atok).
Context (item : K -> S -> writer -> outcome (S * writer)) (sfn : K -> S -> writer -> outcome bool).

Inductive irun : S -> list K -> list (K * json) -> S -> Prop :=
| ir_nil s : irun s [] [] s
| ir_skip s k ks kjs s' : (forall w, inv wo w -> sfn k s w = Ok true) -> irun s ks kjs s' -> irun s (k :: ks) kjs s'
| ir_show s k j s1 ks kjs s' : (forall w, inv wo w -> sfn k s w = Ok false) ->
    (forall w, inv wo w -> room wo w (depth j) -> exists x, item k s w = Ok (s1, push x w) /\ tx d True (tk (k, j)) x) ->
    irun s1 ks kjs s' -> irun s (k :: ks) ((k, j) :: kjs) s'.
Context (tkn : forall kj, tk kj <> []).

Lemma gloop_more s ks kjs s' : irun s ks kjs s' -> forall w, inv wo w ->
  (forall kj, In kj kjs -> room wo w (depth (snd kj))) -> room wo w 0 ->
  exists T, gloop false ks item sfn s w = Ok (true, s', push T w) /\ tx d True (more tk kjs) T /\ stop_pass T.
Proof.
  induction 1 as [s|s k ks kjs s' Hs Ho IH|s k j s1 ks kjs s' Hs Hp Ho IH]; intros w Hw Hr H0; cbn [gloop].
  - exists []. rewrite push_nil. repeat split. { apply tx_nil. } now intros rest H.
  - unfold wok. rewrite (proj2 Hw). cbn [negb]. rewrite (Hs w Hw). cbn [bind]. apply IH; auto.
  - unfold wok. rewrite (proj2 Hw). cbn [negb]. rewrite (Hs w Hw). cbn [bind].
    destruct (wnewline_ok wo d (push (lit ",") w)) as (b & Eb & Hb); [now apply inv_push|exact H0|]. rewrite Eb. cbn [bind].
    destruct (Hp (push b (push (lit ",") w))) as (x & Ex & Hx); [now apply inv_push, inv_push|apply (Hr (k, j)); now left|].
    rewrite Ex. cbn [bind].
    destruct (IH (push x (push b (push (lit ",") w)))) as (T & ET & HT & HS).
    + now apply inv_push, inv_push, inv_push.
    + intros kj Hj. apply (Hr kj). now right.
    + exact H0.
    + rewrite ET. rewrite !push_push. eexists. split; [reflexivity|]. split.
      * change (lit ",") with [44%N]. rewrite <- ?app_assoc. cbn [app more]. apply tx_sep_then; [reflexivity|].
        apply tx_blank; [exact Hb|destruct (tk (k, j)) eqn:E; [now apply tkn in E|discriminate]|].
        eapply tx_app; [exact Hx|exact HT|]. intros rest _ H. apply HS. auto.
      * intros rest _. rewrite <- ?app_assoc. eapply (sep_stop ASep). reflexivity.
Qed.
Lemma gloop_first s ks kjs s' : irun s ks kjs s' -> forall w, inv wo w ->
  (forall kj, In kj kjs -> room wo w (depth (snd kj))) -> room wo w 0 ->
  exists T, gloop true ks item sfn s w = Ok (true, s', push T w) /\ tx d True (sep_by (map tk kjs)) T.
Proof.
  induction 1 as [s|s k ks kjs s' Hs Ho IH|s k j s1 ks kjs s' Hs Hp Ho IH]; intros w Hw Hr H0; cbn [gloop].
  - exists []. rewrite push_nil. split; [reflexivity|]. apply tx_nil.
  - unfold wok. rewrite (proj2 Hw). cbn [negb]. rewrite (Hs w Hw). cbn [bind]. apply IH; auto.
  - unfold wok. rewrite (proj2 Hw). cbn [negb]. rewrite (Hs w Hw). cbn [bind].
    destruct (Hp w) as (x & Ex & Hx); [auto|apply (Hr (k, j)); now left|]. rewrite Ex. cbn [bind].
    destruct (gloop_more _ _ _ _ Ho (push x w)) as (T & ET & HT & HS).
    + now apply inv_push.
    + intros kj Hj. apply (Hr kj). now right.
    + exact H0.
    + rewrite ET, push_push. eexists. split; [reflexivity|]. rewrite sep_by_more.
      eapply tx_app; [exact Hx|exact HT|]. intros rest _ H. apply HS. auto.
Qed.

(* the whole container *)
Definition wrap (op cl : str) (n : nat) (loop : S -> writer -> outcome (bool * S * writer)) (s : S) (w : writer) : outcome (S * writer) :=
  let w0 := push op w in
  do w1 <- (if (1 <? n)%nat then wnewline (indent w0) else Ok (wspace w0));
  do (fin, s1, w2) <- loop s w1;
  if negb fin then Ok (s1, w2) else
  do w3 <- (if (1 <? n)%nat then wnewline (unindent w2) else Ok (wspace w2));
  Ok (s1, push cl w3).
Lemma wrap_ok ta tb a b n s ks kjs s' (dd : nat) : sep ta = Some a -> sep tb = Some b -> irun s ks kjs s' ->
  (forall kj, In kj kjs -> depth (snd kj) <= dd)%nat -> forall w, inv wo w -> room wo w (Datatypes.S dd) ->
  exists x, wrap [a] [b] n (gloop true ks item sfn) s w = Ok (s', push x w) /\ tx d False (ta :: sep_by (map tk kjs) ++ [tb]) x.
Proof.
  intros Ha Hb Hi Hd w Hw Hr. unfold wrap. set (many := (1 <? n)). set (w0 := push [a] w).
  assert (Hw0 : inv wo w0) by now apply inv_push.
  destruct (open_ok wo d many w0 dd Hw0 Hr) as (b1 & w1 & E1 & B1 & I1 & R1 & M1). rewrite E1. cbn [bind].
  destruct (gloop_first _ _ _ _ Hi (push b1 w1)) as (T & ET & HT).
  { now apply inv_push. }
  { intros kj Hj. eapply room_le; [exact R1|]. now apply Hd. }
  { eapply room_le; [exact R1|lia]. }
  rewrite ET. cbn [bind negb]. rewrite push_push.
  destruct (close_ok wo d many w0 w1 (b1 ++ T) (Datatypes.S dd) Hw0 Hr M1) as (b2 & E2 & B2). rewrite E2. cbn [bind].
  unfold w0. rewrite !push_push. eexists. split; [reflexivity|]. rewrite <- ?app_assoc. cbn [app].
  apply tx_sep_then; [exact Ha|]. apply tx_blank; [exact B1|now destruct (sep_by (map tk kjs))|].
  eapply tx_app; [exact HT| |].
  - apply tx_blank; [exact B2|discriminate|]. apply (tx_sep d tb b). exact Hb.
  - intros rest _ _. rewrite <- app_assoc. eapply blank_stop; [exact B2|]. apply (sep_stop tb). exact Hb.
Qed.

(* an error: the loop ends, nothing more is called or written *)
Lemma gloop_err s w ks first : werr w = true -> ks <> [] -> gloop first ks item sfn s w = Ok (false, s, w).
Proof. intros E H. destruct ks; [contradiction|]. cbn [gloop]. unfold wok. rewrite E. reflexivity. Qed.
Lemma gloop_stops s2 k : forall s ks kjs s1, irun s ks kjs s1 -> forall first w more, inv wo w ->
  (forall kj, In kj kjs -> room wo w (depth (snd kj))) -> room wo w 0 -> more <> [] ->
  (forall w, inv wo w -> sfn k s1 w = Ok false) -> (forall w, inv wo w -> exists w', item k s1 w = Ok (s2, w') /\ werr w' = true) ->
  exists w0 w', inv wo w0 /\ item k s1 w0 = Ok (s2, w') /\ gloop first (ks ++ k :: more) item sfn s w = Ok (false, s2, w').
Proof.
  induction 1 as [s|s k0 ks kjs s' Hs Ho IH|s k0 j s3 ks kjs s' Hs Hp Ho IH];
    intros first w mr Hw Hr H0 Hm Hsk He; cbn [app gloop]; unfold wok; rewrite (proj2 Hw); cbn [negb].
  - rewrite (Hsk w Hw). cbn [bind]. assert (N : exists w1, (if first then Ok w else wnewline (push (lit ",") w)) = Ok w1 /\ inv wo w1).
    { destruct first; [eauto|]. destruct (wnewline_ok wo d (push (lit ",") w)) as (b & Eb & _); [now apply inv_push|exact H0|]. rewrite Eb. eexists. split; [reflexivity|]. now apply inv_push, inv_push. }
    destruct N as (w1 & -> & I1). cbn [bind]. destruct (He w1 I1) as (w' & E & Er). rewrite E. cbn [bind]. rewrite (gloop_err _ _ _ _ Er Hm). eauto 6.
  - rewrite (Hs w Hw). cbn [bind]. apply IH; auto.
  - rewrite (Hs w Hw). cbn [bind]. assert (N : exists b, (if first then Ok w else wnewline (push (lit ",") w)) = Ok (push b w)).
    { destruct first; [exists []; now rewrite push_nil|]. destruct (wnewline_ok wo d (push (lit ",") w)) as (b & Eb & _); [now apply inv_push|exact H0|]. rewrite Eb, push_push. eauto. }
    destruct N as (b & ->). cbn [bind]. destruct (Hp (push b w)) as (x & Ex & _); [now apply inv_push|apply (Hr (k0, j)); now left|]. rewrite Ex. cbn [bind].
    apply IH; auto. intros kj Hj. apply (Hr kj). now right.
Qed.
End Print.

(* ---- parsing ---- *)
Lemma reads_R o s t r : reads_at o s t r <-> exists b, R o s b t r.
Proof.
  split.
  - intros (A & B & C & D & E & F). exists (rbuf r), (rpos r), (rline r). destruct r; cbn in *; subst. reflexivity.
  - intros (b & p & l & ->). repeat split.
Qed.
Lemma lexes_split d s ts ts' rest : lexes d s (ts ++ ts') rest -> exists mid, lexes d s ts mid /\ lexes d mid ts' rest.
Proof.
  revert s. induction ts as [|t ts IH]; intros s H; cbn [app] in H; [exists s; split; [constructor|exact H]|].
  apply lexes_cons_inv in H as (w & x & s' & -> & Hw & Hx & Hn & H). destruct (IH _ H) as (mid & H1 & H2). exists mid. split; [|exact H2].
  now constructor.
Qed.
Lemma view_value o j ts rest r : view o (toks j ++ ts) rest r -> exists mid, at_value o (dia o) j mid r /\ lexes (dia o) mid ts rest.
Proof.
  intros [(s & b & Hr & Hl)|(t & ts' & s & b & E & Hr & Hp & Hl)].
  - destruct (lexes_split _ _ _ _ _ Hl) as (mid & H1 & H2). exists mid. split; [|exact H2]. left. exists s. split; [exact H1|]. apply reads_R. eauto.
  - destruct (toks j) as [|a tj] eqn:Ej; [destruct j; discriminate|]. cbn [app] in E. injection E as -> <-.
    destruct (lexes_split _ _ _ _ _ Hl) as (mid & H1 & H2). exists mid. split; [|exact H2]. right. exists t, tj, s.
    split; [exact Ej|]. split; [exact H1|]. split; [apply reads_R; exists b; exact Hr|]. rewrite (R_buf _ _ _ _ _ Hr). exact Hp.
Qed.
Lemma value_view o j rest r : at_value o (dia o) j rest r -> view o (toks j ++ []) rest r.
Proof.
  rewrite app_nil_r. intros [(text & H & Hr)|(a & ts & s & E & Hl & Hr & Hp)].
  - left. apply reads_R in Hr as (b & Hr). exists text, b. auto.
  - right. apply reads_R in Hr as (b & Hr). exists a, ts, s, b. rewrite (R_buf _ _ _ _ _ Hr) in Hp. auto.
Qed.
Lemma takes_step {S : Type} o (fn : reader -> outcome (S * reader)) j s1 : takes o (dia o) fn j s1 ->
  forall rest ts r, view o (toks j ++ ts) rest r -> exists r', fn r = Ok (s1, r') /\ V o ts rest r'.
Proof.
  intros H rest ts r Hv. destruct (view_value _ _ _ _ _ Hv) as (mid & Hm & Hl). destruct (H mid r Hm) as (r' & E & Hr). exists r'. split; [exact E|].
  apply reads_R in Hr as (b & Hr). exists mid, b. auto.
Qed.
Lemma items_chain {S : Type} o rest (fn : nat -> S -> reader -> outcome (S * reader)) i s js s' :
  takes_items o (dia o) fn i s js s' -> chain o rest fn i s (map toks js) s'.
Proof. induction 1 as [i s|i s j js s1 s' H _ IH]; cbn [map]; [constructor|]. econstructor; [|exact IH]. intros ts r. now apply takes_step. Qed.
Lemma members_chain {S : Type} o rest (fn : str -> S -> reader -> outcome (S * reader)) s kjs s' :
  takes_members o (dia o) fn s kjs s' -> kchain o rest fn s (map (fun kv => (fst kv, toks (snd kv))) kjs) s'.
Proof. induction 1 as [s|s k j kjs s1 s' H _ IH]; cbn [map fst snd]; [constructor|]. econstructor; [|exact IH]. intros ts r. now apply takes_step. Qed.
Lemma V_reads o rest r : V o [] rest r -> reads_at o rest TNone r.
Proof. intros (s & b & H & Hl). inversion Hl; subst. apply reads_R. eauto. Qed.
