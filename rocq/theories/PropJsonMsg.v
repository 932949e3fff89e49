(* PropJsonMsg.v - C88: the text of the reader's errors. *)
From Coq Require String. Import String.StringSyntax.
From Verif Require Import Base Dec ModelError ModelJson ModelJsonW ModelJsonT SpecJson SpecJsonPos ProofJson1 ProofJson2 ProofJson3 ProofJson4 ProofJson5 ProofJson6 ProofJson10 ProofJsonMsg1 PropError PropJsonStr PropJsonTok PropJsonPos ModelJsonMsg SpecJsonMsg.
Local Open Scope outcome_scope.
Local Open Scope N_scope.

(* ---- helpers ---- *)
Lemma cstr_id s : ~ In 0 s -> cstr s = s.
Proof. induction s as [|c s IH]; cbn; intro H; [reflexivity|]. destruct (N.eqb_spec c 0) as [->|]; [exfalso; auto|]. rewrite IH; auto. Qed.
Lemma cstr_length s : (length (cstr s) <= length s)%nat.
Proof. induction s as [|c s IH]; cbn; [lia|]. destruct (c =? 0); cbn; lia. Qed.
Lemma cstr_in s c : In c (cstr s) -> In c s /\ c <> 0.
Proof. induction s as [|x s IH]; cbn; [tauto|]. destruct (N.eqb_spec x 0); cbn; [tauto|]. intros [<-|H]; [auto|]. apply IH in H. tauto. Qed.
Lemma what_map s : what_text (map Some s) = Ok (cstr s).
Proof. induction s as [|c s IH]; cbn; [reflexivity|]. destruct (c =? 0); [reflexivity|]. rewrite IH. reflexivity. Qed.
Lemma achar_c c : c < 256 -> Z.to_N ((if c <? 128 then Z.of_N c else Z.of_N c - 256) mod 256) = c.
Proof.
  intro H. destruct (N.ltb_spec c 128).
  - rewrite Z.mod_small by lia. lia.
  - replace (Z.of_N c - 256)%Z with (Z.of_N c + (-1) * 256)%Z by lia. rewrite Z.mod_add by lia. rewrite Z.mod_small by lia. lia.
Qed.
Lemma nib_char d : d < 16 -> hexchar d = nth (N.to_nat d) (lit "0123456789abcdef") 0.
Proof.
  intro H. assert (E : forallb (fun d => hexchar d =? nth (N.to_nat d) (lit "0123456789abcdef") 0) (map N.of_nat (seq 0 16)) = true) by (vm_compute; reflexivity).
  rewrite forallb_forall in E. apply N.eqb_eq, E. apply in_map_iff. exists (N.to_nat d). split; [lia|]. apply in_seq. lia.
Qed.
Lemma hex_char c h : 128 <= c -> hexbyte c h -> hexnum 8 (Z.to_N ((Z.of_N c - 256) mod 2 ^ 32)) = lit "ffffff" ++ h.
Proof.
  intros Hc H. destruct H as [hi lo Hh Hl].
  assert (E : forallb (fun hi => forallb (fun lo => (16 * hi + lo <? 128) || if list_eq_dec N.eq_dec (hexnum 8 (Z.to_N ((Z.of_N (16 * hi + lo) - 256) mod 2 ^ 32))) (lit "ffffff" ++ [hexchar hi; hexchar lo]) then true else false)
     (map N.of_nat (seq 0 16))) (map N.of_nat (seq 0 16)) = true) by (vm_compute; reflexivity).
  assert (In16 : forall d, d < 16 -> In d (map N.of_nat (seq 0 16))).
  { intros d Hd. apply in_map_iff. exists (N.to_nat d). split; [lia|]. apply in_seq. lia. }
  rewrite forallb_forall in E. specialize (E hi (In16 _ Hh)). rewrite forallb_forall in E. specialize (E lo (In16 _ Hl)).
  apply orb_true_iff in E as [E|E]; [apply N.ltb_lt in E; lia|].
  destruct (list_eq_dec N.eq_dec _ _) as [E2|]; [|discriminate]. rewrite E2, !nib_char by assumption. reflexivity.
Qed.
Lemma hexbyte_total c : c < 256 -> exists h, hexbyte c h.
Proof.
  intro H. eexists. assert (E : c = 16 * (c / 16) + c mod 16) by (apply N.div_mod; discriminate).
  rewrite E at 1. constructor; [apply N.div_lt_upper_bound; lia|apply N.mod_lt; discriminate].
Qed.

Lemma named_text t n : named t n <-> type_text t = n.
Proof. split; [now destruct 1|]. intros <-. destruct t; constructor. Qed.
Lemma shown_text t b g : shown t b g <-> token_text t b = g.
Proof.
  split.
  - intro W; destruct W as [| | | | |t text n A B C D H]; try reflexivity. apply named_text in H. subst n. unfold token_text.
    replace (value_text t text) with (@None str); [reflexivity|]. destruct t; try reflexivity; exfalso; first [exact (A eq_refl)|exact (B eq_refl)|exact (C eq_refl)|exact (D _ eq_refl)].
  - intros <-. destruct t; try (constructor; fail); try (destruct b0; constructor); eapply sh_other; try discriminate; constructor.
Qed.
Lemma type_nonul t : ~ In 0 (type_text t).
Proof. destruct t; vm_compute; intuition discriminate. Qed.
Lemma type_len t : (length (type_text t) <= 6)%nat.
Proof. destruct t; vm_compute; lia. Qed.
Lemma token_nonul t b : ~ In 0 b -> ~ In 0 (token_text t b).
Proof.
  intros H K. unfold token_text in K. apply in_app_or in K as [K|K]; [vm_compute in K; intuition discriminate|].
  apply in_app_or in K as [K|K]; [now apply type_nonul in K|]. apply in_app_or in K as [K|K]; [|vm_compute in K; intuition discriminate].
  destruct t; cbn [value_text] in K; try (destruct b0); try contradiction; try (vm_compute in K; intuition discriminate);
  (apply in_app_or in K as [K|K]; [vm_compute in K; intuition discriminate|contradiction]).
Qed.
Lemma token_len t b : (length (token_text t b) <= 19 + length b)%nat.
Proof. unfold token_text. rewrite !app_length. destruct t; try (destruct b0); cbn; rewrite ?app_length; cbn; nlia. Qed.

(* the arguments are shown by the formatted message *)
Definition fine_cause (c : cause) : Prop :=
  match c with
  | ELiteral l => In l [lit "ull"; lit "rue"; lit "alse"]
  | EHex x | EEscape x | EChar x => x < 256
  | EUtf8Head x => 128 <= x < 256
  | EOther _ => False
  | _ => True
  end.
Ltac go := unfold call, expand; cbv [lit String.list_byte_of_string map]; cbn -[cstr token_text type_text hexnum Z.modulo Z.to_N Z.pow].
Lemma call_says c m : fine_cause c -> ~ In 0 (quoted c) -> says c m -> expand (fst (call c)) (snd (call c)) = Some m.
Proof.
  intros F Z H. destruct H; cbn [call fst snd]; cbn [fine_cause quoted] in F, Z.
  all: try reflexivity.
  - destruct F as [<-|[<-|[<-|[]]]]; reflexivity.
  - cbn -[Z.modulo Z.to_N Z.of_N Z.sub N.ltb]. rewrite achar_c by exact F. reflexivity.
  - cbn -[Z.modulo Z.to_N Z.of_N Z.sub N.ltb hexnum Z.pow]. destruct (N.ltb_spec c 128); [lia|]. rewrite (hex_char c h) by (tauto || assumption). rewrite app_nil_r. reflexivity.
  - cbn -[Z.modulo Z.to_N Z.of_N Z.sub N.ltb]. rewrite achar_c by exact F. reflexivity.
  - cbn -[Z.modulo Z.to_N Z.of_N Z.sub N.ltb]. rewrite achar_c by exact F. reflexivity.
  - apply shown_text in H. apply named_text in H0. subst g x. cbn -[cstr token_text type_text].
    rewrite !cstr_id by (apply type_nonul || now apply token_nonul). reflexivity.
  - apply shown_text in H. subst g. cbn -[cstr token_text type_text]. rewrite !cstr_id by now apply token_nonul. reflexivity.
Qed.
Lemma uses_good o s r e : uses (reader_init o s) r -> rerr r = Some e -> good s r (err_cause e).
Proof.
  intros U E. apply uses_rsteps in U. destruct (inv_steps s _ _ U (inv_init s o)) as (_ & I). now rewrite E in I.
Qed.
Lemma lastc_bound s c i f : Forall (fun c => c < 256) s -> lastc s c i f -> c < 256.
Proof.
  intros B [((x & ->) & _)|(-> & _)]; [|reflexivity]. apply Forall_app in B as (_ & B). now inversion B.
Qed.
Lemma good_fine s r c : Forall (fun c => c < 256) s -> (forall m, c <> EOther m) -> good s r c -> fine_cause c.
Proof.
  intros B NO G. destruct c; cbn in *; try exact Logic.I; try exact G.
  - eapply lastc_bound; eauto.
  - destruct G as (G & L). split; [exact L|]. eapply lastc_bound; eauto.
  - eapply lastc_bound; eauto.
  - destruct G as ((y & ->) & _). apply Forall_app in B as (_ & B). now inversion B.
  - now destruct (NO msg).
Qed.
Lemma says_total c : fine_cause c -> exists m, says c m.
Proof.
  intro F. destruct c; cbn in F; try (eexists; constructor; fail); try contradiction.
  - destruct (hexbyte_total c) as (h & H); [lia|]. eexists. constructor. exact H.
  - eexists. constructor; [now apply shown_text|now apply named_text].
  - eexists. constructor. now apply shown_text.
Qed.
Lemma dec_nonul n : ~ In 0 (dec n).
Proof. intro H. pose proof (dec_digits n) as F. rewrite Forall_forall in F. specialize (F _ H). discriminate. Qed.
Lemma what_app a b : ~ In 0 a -> what_text (map Some a ++ b) = (do t <- what_text b; Ok (a ++ t)).
Proof.
  induction a as [|c a IH]; cbn [map app what_text]; intro H; [now destruct (what_text b)|].
  destruct (N.eqb_spec c 0) as [->|]; [exfalso; apply H; now left|]. rewrite IH by (intro; apply H; now right). now destruct (what_text b).
Qed.
Definition place (e : rerror) : str := dec (err_line e) ++ lit ":" ++ dec (err_pos e) ++ lit ": ".
Lemma place_nonul e : ~ In 0 (place e).
Proof.
  unfold place. intro H. apply in_app_or in H as [H|H]; [now apply dec_nonul in H|]. apply in_app_or in H as [H|H]; [vm_compute in H; intuition discriminate|].
  apply in_app_or in H as [H|H]; [now apply dec_nonul in H|vm_compute in H; intuition discriminate].
Qed.
Lemma what_fits e m : expand (fst (call (err_cause e))) (snd (call (err_cause e))) = Some m -> (length m <= 1022)%nat ->
  error_what e = Ok (place e ++ cstr m).
Proof.
  intros E L. unfold error_what, error_string. destruct (call (err_cause e)) as [fmt args]. cbn [fst snd] in E. rewrite E.
  rewrite c43_short_messages_exact by exact L. cbn [bind]. fold (place e). rewrite what_app by apply place_nonul. rewrite what_map. reflexivity.
Qed.
Lemma says_len c m : fine_cause c -> says c m -> (length m <= 58 + length (quoted c))%nat.
Proof.
  intros F H. destruct H; cbn [quoted]; rewrite ?app_length; try (cbn; lia).
  - destruct F as [<-|[<-|[<-|[]]]]; cbn; lia.
  - destruct H. cbn. lia.
  - apply shown_text in H. apply named_text in H0. subst. pose proof (token_len got text). pose proof (type_len exp). cbn -[token_text type_text]. nlia.
  - apply shown_text in H. subst. pose proof (token_len got text). cbn -[token_text type_text]. nlia.
Qed.
Lemma says_nonul c m : fine_cause c -> ~ In 0 (quoted c) -> says c m -> ~ In 0 m.
Proof.
  assert (A : forall a (b c : str), ~ In 0 a -> ~ In 0 b -> ~ In 0 c -> ~ In 0 (a ++ b ++ c)).
  { intros a b c0 Ha Hb Hc H. apply in_app_or in H as [H|H]; [auto|]. apply in_app_or in H as [H|H]; auto. }
  assert (L : forall a : str, existsb (N.eqb 0) a = false -> ~ In 0 a).
  { intros a Ha H. assert (existsb (N.eqb 0) a = true); [|congruence]. apply existsb_exists. exists 0. split; [exact H|reflexivity]. }
  intros F Z H. destruct H; try (apply L; reflexivity).
  - destruct F as [<-|[<-|[<-|[]]]]; apply L; reflexivity.
  - apply A; [apply L; reflexivity|exact Z|apply L; reflexivity].
  - intro K. apply in_app_or in K as [K|K]; [revert K; apply L; reflexivity|]. destruct H as [hi lo Hh Hl]. rewrite <- !nib_char in K by assumption.
    destruct K as [K|[K|[]]]; unfold hexchar in K; match type of K with context [if ?b then _ else _] => destruct b end; nlia.
  - apply A; [apply L; reflexivity|exact Z|apply L; reflexivity].
  - apply A; [apply L; reflexivity|exact Z|apply L; reflexivity].
  - apply shown_text in H. apply named_text in H0. subst. apply A; [apply L; reflexivity|now apply token_nonul|].
    apply A; [apply L; reflexivity|apply type_nonul|apply L; reflexivity].
  - apply shown_text in H. subst. apply A; [apply L; reflexivity|now apply token_nonul|apply L; reflexivity].
Qed.

(* ==== C88 ==== *)
(* Whatever is read from a document of at most 960 bytes, and however: what() of the error
   it ends with is LINE:COLUMN: and the description of its cause, quoting the offending
   byte or token. *)
Theorem c88_message : forall (o : ropts) (s : str) (r : reader) (e : rerror),
  Forall (fun c => c < 256) s -> (length s <= 960)%nat ->
  uses (reader_init o s) r -> rerr r = Some e ->
  (forall msg, err_cause e <> EOther msg) -> ~ In 0 (quoted (err_cause e)) ->
  exists m, says (err_cause e) m /\
    error_what e = Ok (dec (err_line e) ++ lit ":" ++ dec (err_pos e) ++ lit ": " ++ m).
Proof.
  intros o s r e B L U E NO Z. pose proof (uses_good _ _ _ _ U E) as G. pose proof (good_fine _ _ _ B NO G) as F.
  destruct (says_total _ F) as (m & Hm). exists m. split; [exact Hm|].
  rewrite (what_fits e m); [|now apply call_says|].
  - unfold place. rewrite <- !app_assoc. rewrite cstr_id; [reflexivity|]. eapply says_nonul; eauto.
  - pose proof (says_len _ _ F Hm). enough (length (quoted (err_cause e)) <= length s + 2)%nat by lia.
    destruct (err_cause e); cbn in G |- *; try lia; exact G.
Qed.
Print Assumptions c88_message.

(* The description is determined by the cause. *)
Theorem c88_description_unique : forall c m m', says c m -> says c m' -> m = m'.
Proof.
  intros c m m' H H'. destruct H; inversion H'; subst; try reflexivity.
  - f_equal. destruct H as [hi lo Hh Hl]. match goal with K : hexbyte (16 * hi + lo) _ |- _ => remember (16 * hi + lo) as c eqn:Ec; destruct K as [hi' lo' Hh' Hl'] end.
    assert (hi' = hi /\ lo' = lo) as (-> & ->) by lia. reflexivity.
  - repeat match goal with K : shown _ _ _ |- _ => apply shown_text in K | K : named _ _ |- _ => apply named_text in K end. subst. reflexivity.
  - repeat match goal with K : shown _ _ _ |- _ => apply shown_text in K end. subst. reflexivity.
Qed.
Print Assumptions c88_description_unique.

Lemma call_defined s r c : good s r c -> (forall m, c <> EOther m) ->
  exists m, expand (fst (call c)) (snd (call c)) = Some m /\ (length m <= 58 + length (quoted c))%nat.
Proof.
  intros G NO.
  assert (X : forall n v, (length (hexnum n v) <= n)%nat).
  { induction n as [|n IH]; intro v; cbn; [lia|]. destruct (v <? 16); cbn; [lia|]. rewrite app_length. specialize (IH (v / 16)). cbn. nlia. }
  destruct c; cbn in G.
  - eexists. split; [reflexivity|]. cbn. lia.
  - eexists. split; [cbn -[cstr]; reflexivity|]. destruct G as [<-|[<-|[<-|[]]]]; cbn; lia.
  - eexists. split; [cbn -[Z.modulo Z.to_N Z.of_N Z.sub N.ltb hexnum Z.pow]; reflexivity|]. cbn -[Z.modulo Z.to_N Z.of_N Z.sub N.ltb hexnum Z.pow]. repeat apply le_n_S. apply Nat.le_0_l.
  - eexists. split; [cbn -[Z.modulo Z.to_N Z.of_N Z.sub N.ltb hexnum Z.pow]; reflexivity|]. cbn -[hexnum Z.modulo Z.to_N Z.of_N Z.sub N.ltb Z.pow].
    rewrite app_length. match goal with |- context [hexnum 8 ?v] => pose proof (X 8%nat v) end. cbn [length]. nlia.
  - eexists. split; [reflexivity|]. cbn. lia.
  - eexists. split; [reflexivity|]. cbn. lia.
  - eexists. split; [cbn -[Z.modulo Z.to_N Z.of_N Z.sub N.ltb hexnum Z.pow]; reflexivity|]. cbn -[Z.modulo Z.to_N Z.of_N Z.sub N.ltb hexnum Z.pow]. repeat apply le_n_S. apply Nat.le_0_l.
  - eexists. split; [reflexivity|]. cbn. lia.
  - eexists. split; [cbn -[Z.modulo Z.to_N Z.of_N Z.sub N.ltb hexnum Z.pow]; reflexivity|]. cbn -[Z.modulo Z.to_N Z.of_N Z.sub N.ltb hexnum Z.pow]. repeat apply le_n_S. apply Nat.le_0_l.
  - eexists. split; [cbn -[cstr token_text type_text]; reflexivity|]. cbn -[cstr token_text type_text].
    rewrite !app_length. cbn [length]. rewrite !app_length. cbn [length]. pose proof (cstr_length (token_text got text)). pose proof (cstr_length (type_text exp)).
    pose proof (token_len got text). pose proof (type_len exp). nlia.
  - eexists. split; [cbn -[cstr token_text type_text]; reflexivity|]. cbn -[cstr token_text type_text].
    rewrite !app_length. cbn [length]. pose proof (cstr_length (token_text got text)). pose proof (token_len got text). nlia.
  - now destruct (NO msg).
Qed.

(* Whatever bytes the document has, reporting is defined when it has at most 960 of them,
   and the text starts with the line and the column. *)
Theorem c88_short_documents_defined : forall (o : ropts) (s : str) (r : reader) (e : rerror),
  (length s <= 960)%nat -> uses (reader_init o s) r -> rerr r = Some e -> (forall msg, err_cause e <> EOther msg) ->
  exists m, error_what e = Ok (dec (err_line e) ++ lit ":" ++ dec (err_pos e) ++ lit ": " ++ m).
Proof.
  intros o s r e L U E NO. pose proof (uses_good _ _ _ _ U E) as G. destruct (call_defined _ _ _ G NO) as (m & A & B).
  exists (cstr m). rewrite (what_fits e m A).
  - unfold place. now rewrite <- !app_assoc.
  - enough (length (quoted (err_cause e)) <= length s + 2)%nat by lia. destruct (err_cause e); cbn in G |- *; try lia; exact G.
Qed.
Print Assumptions c88_short_documents_defined.

(* Two errors with the same text are at the same place. *)
Theorem c88_place_recoverable : forall e e' t, error_what e = Ok t -> error_what e' = Ok t ->
  err_line e = err_line e' /\ err_pos e = err_pos e'.
Proof.
  assert (P : forall e t, error_what e = Ok t -> exists u, t = dec (err_line e) ++ 58 :: (dec (err_pos e) ++ 58 :: u)).
  { intros e t H. unfold error_what, error_string in H. destruct (call (err_cause e)) as [fmt args]. destruct (expand fmt args) as [m|]; [|discriminate].
    binv H. binv K. injection K as <-. fold (place e) in H. rewrite what_app in H by apply place_nonul. binv H. injection H as <-.
    exists (32 :: a). unfold place. change (lit ":") with [58]. change (lit ": ") with [58; 32]. cbn [app]. rewrite <- !app_assoc. cbn [app]. rewrite <- !app_assoc. reflexivity. }
  assert (A : forall a b x y, Forall (fun c : byte => c <> 58) a -> Forall (fun c => c <> 58) b ->
     a ++ 58 :: x = b ++ 58 :: y -> a = b /\ x = y).
  { induction a as [|c a IH]; intros [|d b] x y Fa Fb E; cbn in E; injection E; intros; subst; auto.
    - inversion Fb; congruence.
    - inversion Fa; congruence.
    - inversion Fa; inversion Fb; subst. destruct (IH b x y) as (-> & ->); auto. }
  assert (D : forall n, Forall (fun c : byte => c <> 58) (dec n)).
  { intro n. eapply Forall_impl; [|apply dec_digits]. cbn. intros c Hc ->. discriminate. }
  intros e e' t H H'. destruct (P _ _ H) as (u & Hu). destruct (P _ _ H') as (u' & Hu'). rewrite Hu in Hu'.
  apply A in Hu' as (E1 & Hu'); auto. apply A in Hu' as (E2 & _); auto. apply dec_inj in E1. apply dec_inj in E2. auto.
Qed.
Print Assumptions c88_place_recoverable.

(* Longer documents: the description is only right when it has at most 1022 bytes; then it
   loses its end, and from 1025 bytes on memory past the buffer is read. *)
Theorem c88_long_messages_refuted : forall (o : ropts) (s : str) (r : reader) (e : rerror) (m : str),
  Forall (fun c => c < 256) s -> uses (reader_init o s) r -> rerr r = Some e ->
  ~ In 0 (quoted (err_cause e)) -> says (err_cause e) m ->
  ((length m <= 1022)%nat -> error_what e = Ok (dec (err_line e) ++ lit ":" ++ dec (err_pos e) ++ lit ": " ++ m)) /\
  ((1023 <= length m <= 1024)%nat -> error_what e = Ok (dec (err_line e) ++ lit ":" ++ dec (err_pos e) ++ lit ": " ++ firstn 1022 m)) /\
  ((1025 <= length m)%nat -> error_what e = UB).
Proof.
  intros o s r e m B U E Z Hm. pose proof (uses_good _ _ _ _ U E) as G.
  assert (NO : forall msg, err_cause e <> EOther msg) by (intros msg K; rewrite K in Hm; inversion Hm).
  pose proof (good_fine _ _ _ B NO G) as F. pose proof (says_nonul _ _ F Z Hm) as Zm. pose proof (call_says _ _ F Z Hm) as X.
  split; [|split]; intro L.
  - rewrite (what_fits e m X L). unfold place. rewrite <- !app_assoc, cstr_id by exact Zm. reflexivity.
  - destruct (c43_long_messages_refuted m ltac:(lia)) as [(_ & tail & E2 & _)|(K & _)]; [|lia].
    unfold error_what, error_string. destruct (call (err_cause e)) as [fmt args]. cbn [fst snd] in X. rewrite X, E2. cbn [bind].
    fold (place e). rewrite what_app by apply place_nonul.
    assert (Z2 : ~ In 0 (firstn 1022 m)). { intro K. apply Zm. rewrite <- (firstn_skipn 1022 m). apply in_or_app. now left. }
    rewrite what_app by exact Z2. cbn [what_text bind N.eqb]. rewrite app_nil_r. unfold place. now rewrite <- !app_assoc.
  - destruct (c43_long_messages_refuted m ltac:(lia)) as [(K & _)|(_ & E2)]; [lia|].
    unfold error_what, error_string. destruct (call (err_cause e)) as [fmt args]. cbn [fst snd] in X. rewrite X, E2. reflexivity.
Qed.
Print Assumptions c88_long_messages_refuted.

(* A string where something else is expected: 976 bytes, counting the name of what is
   expected, are enough.  (No byte of the document is above 255.) *)
Theorem c88_long_token_refuted : forall (o : ropts) (v x rest n : str) (exp : token),
  spells (dia o) v x -> ~ In 0 v -> Forall (fun c => c < 256) (34 :: x ++ 34 :: rest) ->
  named exp n -> exp <> TStr -> (976 <= length v + length n)%nat ->
  exists t r e, expect_tok exp (reader_init o (34 :: x ++ 34 :: rest)) = Ok (t, r) /\
    rerr r = Some e /\ err_cause e = EUnexpected TStr exp v /\ error_what e = UB.
Proof.
  intros o v x rest n exp Hs Z B Hn Hx L.
  destruct (parse_spelled o v x rest Hs) as (r & P & A & _).
  unfold parse_string in P. binv P. destruct a as [t r1]. unfold expect_tok in K. binv K. destruct a as [t1 r0].
  assert (Q : t1 = TStr /\ r0 = r /\ rbuf r0 = v).
  { destruct (same_type t1 TStr) eqn:Q.
    - injection K as <- <-. destruct t1; try discriminate. cbn in P. injection P as <- <-. auto.
    - injection K as <- <-. cbn in P. discriminate. }
  destruct Q as (-> & -> & Hv). 
  assert (Hne : same_type TStr exp = false) by (destruct exp; try reflexivity; now destruct Hx).
  assert (E : expect_tok exp (reader_init o (34 :: x ++ 34 :: rest)) = Ok (TEOS, assert_tok TStr exp r)).
  { unfold expect_tok. rewrite K0. cbn [bind]. rewrite Hne. reflexivity. }
  set (e := mkErr (rline r) (rpos r) (EUnexpected TStr exp v)).
  assert (Er : rerr (assert_tok TStr exp r) = Some e).
  { unfold assert_tok. rewrite Hne. unfold rerror_set. rewrite A, Hv. reflexivity. }
  exists TEOS, (assert_tok TStr exp r), e. split; [exact E|]. split; [exact Er|]. split; [reflexivity|].
  destruct (c88_long_messages_refuted o _ _ e _ B (u_expect _ _ _ _ E) Er Z (s_unexpected TStr exp v _ _ (sh_str v) Hn)) as (_ & _ & K1).
  apply K1. rewrite !app_length. cbn [length app lit]. change (length (lit "unexpected token <")) with 18%nat.
  change (length (lit "<Token string: ")) with 15%nat. change (length (lit ">")) with 1%nat. change (length (lit ">, expecting <")) with 14%nat. nlia.
Qed.
Print Assumptions c88_long_token_refuted.

(* A missing comma in an array read into no particular type does it too. *)
Definition overruns (s : str) : bool :=
  match parse_dyn 10 VVoid (reader_init ropts_default s) with
  | Ok (_, r) => match rerr r with Some e => match error_what e with UB => true | _ => false end | None => false end
  | _ => false
  end.
Example c88_missing_comma : exists v r e,
  parse_dyn 10 VVoid (reader_init ropts_default (lit "[1 " ++ [34] ++ repeat 97 1000 ++ [34] ++ lit "]")) = Ok (v, r) /\
  rerr r = Some e /\ error_what e = UB.
Proof.
  assert (H : overruns (lit "[1 " ++ [34] ++ repeat 97 1000 ++ [34] ++ lit "]") = true) by (vm_compute; reflexivity).
  unfold overruns in H. destruct (parse_dyn _ _ _) as [[v r]| | | |]; try discriminate. exists v, r.
  destruct (rerr r) as [e|]; [|discriminate]. exists e. destruct (error_what e); try discriminate. auto.
Qed.

(* A NUL in the quoted text (an escape can spell it) cuts what is shown of the token. *)
Theorem c88_nul_refuted : exists r e,
  parse_null (reader_init ropts_default ([34] ++ lit "a\u0000b" ++ [34])) = Ok r /\ rerr r = Some e /\
  err_cause e = EUnexpected TStr TNull [97; 0; 98] /\
  error_what e = Ok (lit "1:11: unexpected token <<Token string: a>, expecting <null>").
Proof. do 2 eexists. wit. Qed.
Print Assumptions c88_nul_refuted.

(* ---- the quoted byte ---- *)
Lemma snoc_eq (a b : str) c d : a ++ [c] = b ++ [d] -> a = b /\ c = d.
Proof. apply app_inj_tail. Qed.
Lemma last_two (s x b l i : str) c : s = x ++ c :: i -> s = b ++ l ++ i -> (length l <= 1)%nat ->
  (l = [c] /\ b = x) \/ (l = [] /\ b = x ++ [c]).
Proof.
  intros -> E L. replace (x ++ c :: i) with ((x ++ [c]) ++ i) in E by now rewrite <- app_assoc.
  rewrite app_assoc in E. apply app_inv_tail in E. destruct l as [|d [|]]; [right|left|cbn in L; lia].
  - rewrite app_nil_r in E. auto.
  - apply snoc_eq in E as (-> & ->). auto.
Qed.
Definition bad_byte (c : cause) : option N :=
  match c with EHex x | EUtf8Head x | EEscape x | EChar x => Some x | _ => None end.

(* The byte a message quotes is the byte of the document at the place it gives (columns
   count it in), unless the document ends there, in which case the byte is 0xff. *)
Theorem c88_quoted_byte : forall (o : ropts) (s : str) (r : reader) (e : rerror) (c : N),
  o_comments o = false -> uses (reader_init o s) r -> rerr r = Some e -> bad_byte (err_cause e) = Some c -> c <> 10 ->
  (exists before after, s = before ++ c :: after /\
     err_line e = 1 + newlines before /\ err_pos e = column before + 1) \/
  (c = 255 /\ err_cause e <> EChar c /\ rin r = [] /\ rfail r = true).
Proof.
  intros o s r e c Ho U E Hb Hc. pose proof (uses_good _ _ _ _ U E) as G.
  destruct (c42_line_and_column o s r Ho U) as (_ & W). destruct (W e E) as (b & l & Hs & Hl & Hline & Hpos).
  assert (K : (exists x, s = x ++ c :: rin r) /\ rfail r = false \/ (c = 255 /\ err_cause e <> EChar c /\ rin r = [] /\ rfail r = true)).
  { destruct (err_cause e); try discriminate; injection Hb as ->; cbn in G.
    - destruct G as [G|(A & B & D)]; [left; exact G|right]. repeat (split; [assumption || discriminate|]). exact D.
    - destruct G as (G & _). destruct G as [G|(A & B & D)]; [left; exact G|right]. repeat (split; [assumption || discriminate|]). exact D.
    - destruct G as [G|(A & B & D)]; [left; exact G|right]. repeat (split; [assumption || discriminate|]). exact D.
    - destruct G as (G & F & _). auto. }
  destruct K as [((x & Hx) & F)|K]; [left|right; exact K].
  exists x, (rin r). split; [exact Hx|].
  destruct (last_two s x b l (rin r) c Hx Hs Hl) as [(-> & ->)|(-> & ->)].
  - split; [exact Hline|]. destruct Hpos as [Hpos|(K & _)]; [exact Hpos|discriminate].
  - destruct Hpos as [Hpos|(_ & _ & K & _)]; [|congruence].
    assert (C : column (x ++ [c]) = column x + 1) by (unfold column; rewrite ProofJsonPos.col_app; cbn; destruct (N.eqb_spec c 10); [contradiction|reflexivity]).
    assert (D : newlines (x ++ [c]) = newlines x).
    { rewrite nl_app. cbn. destruct (N.eqb_spec c 10); [contradiction|]. apply N.add_0_r. }
    split; [rewrite Hline; f_equal; exact D|]. rewrite Hpos. cbn [length]. change (N.of_nat 0) with 0. rewrite N.add_0_r. exact C.
Qed.
Print Assumptions c88_quoted_byte.

(* At the end of the text a byte is quoted that is not in the document. *)
Theorem c88_end_of_text_refuted : exists t r e,
  next_tok (reader_init ropts_default [34; 92]) = Ok (t, r) /\ rerr r = Some e /\ err_cause e = EEscape 255 /\
  error_what e = Ok (lit "1:4: unknown escaped character <" ++ [255] ++ lit ">") /\ ~ In 255 [34; 92].
Proof. do 3 eexists. repeat (split; [vm_compute; reflexivity|]). vm_compute. intuition discriminate. Qed.
Print Assumptions c88_end_of_text_refuted.

(* documents that are rejected with a described cause *)
Example c88_ex : exists v r e,
  parse_dyn 10 VVoid (reader_init ropts_default (lit "[1, tru]")) = Ok (v, r) /\ rerr r = Some e /\
  err_cause e = ELiteral (lit "rue") /\ error_what e = Ok (lit "1:9: expected literal <rue>").
Proof. do 3 eexists. wit. Qed.
Example c88_ex_byte : exists t r e,
  next_tok (reader_init ropts_default (10 :: lit "  ?")) = Ok (t, r) /\ uses (reader_init ropts_default (10 :: lit "  ?")) r /\
  rerr r = Some e /\ err_line e = 2 /\ err_pos e = 4 /\ bad_byte (err_cause e) = Some 63 /\
  error_what e = Ok (lit "2:4: unexpected character <?>").
Proof.
  assert (E : exists t r, next_tok (reader_init ropts_default (10 :: lit "  ?")) = Ok (t, r)) by (do 2 eexists; vm_compute; reflexivity).
  do 3 eexists. split; [vm_compute; reflexivity|]. split; [eapply u_next; vm_compute; reflexivity|]. wit.
Qed.
Example c88_ex_token : exists t r e,
  expect_tok TInt (reader_init ropts_default (lit " true")) = Ok (t, r) /\ rerr r = Some e /\
  says (err_cause e) (lit "unexpected token <<Token bool: true>>, expecting <int>") /\
  error_what e = Ok (lit "1:6: unexpected token <<Token bool: true>>, expecting <int>").
Proof.
  do 3 eexists. split; [vm_compute; reflexivity|]. split; [vm_compute; reflexivity|]. split; [|vm_compute; reflexivity].
  cbn [err_cause]. exact (s_unexpected (TBool true) TInt [] _ _ (sh_true []) n_int).
Qed.
