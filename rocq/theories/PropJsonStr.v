(* PropJsonStr.v - C29, C30, C31, C32, C33: strings, escapes and integers. *)
From Coq Require String. Import String.StringSyntax.
From Verif Require Import Base Dec ModelJson ModelJsonW SpecJson ProofJson1 ProofJson2 ProofJson3 ProofJson4 ProofJson5 ProofJson6 ProofJson8 ProofJson9 ProofJson10.
Local Open Scope outcome_scope.
Local Open Scope N_scope.

(* ---- helpers ---- *)
Ltac wit := lazymatch goal with |- _ /\ _ => split; [vm_compute; reflexivity|wit] | _ => vm_compute; reflexivity end.

Lemma R_init o s : R o s [] TNone (reader_init o s).
Proof. exists 1, 1. reflexivity. Qed.

Lemma parse_spelled o s x rest : spells (dia o) s x ->
  exists r, parse_string (reader_init o (34 :: x ++ 34 :: rest)) = Ok (s, r) /\ rerr r = None /\ rok r = true /\ rin r = rest.
Proof.
  intro Hs.
  assert (Hl : lexes (dia o) (34 :: x ++ 34 :: rest) [AStr s] rest).
  { replace (34 :: x ++ 34 :: rest) with ([] ++ (34 :: x ++ [34]) ++ rest) by (cbn; rewrite <- app_assoc; reflexivity).
    constructor; [constructor|now constructor|intros []|constructor]. }
  destruct (expect_view o (AStr s) [] rest _ TStr (V_view _ _ _ _ (V_init _ _ _ _ Hl)) eq_refl) as (r & E & HV & HP).
  unfold parse_string. rewrite E. cbn [bind tok_of as_string]. exists r. cbn in HP. rewrite HP.
  destruct (V_end _ _ _ HV) as (A & B & C & D). auto.
Qed.

(* ==== C29 ==== *)
(* With escaping on, the text pushed for a string of characters up to U+FFFF is read
   back as that string by any reader that unescapes, whatever follows it. *)
Theorem c29_escaped_round_trip : forall (s : str) (w : writer) (o : ropts) (rest : str),
  utf8_text (fun cp => cp < 0x10000) s ->
  w_escape (wopt w) = true -> werr w = false -> o_unescape o = true ->
  exists text r,
    format_string s w = Ok (push text w) /\
    parse_string (reader_init o (text ++ rest)) = Ok (s, r) /\ rerr r = None /\ rin r = rest.
Proof.
  intros s w o rest Hs He Hw Ho.
  destruct (format_string_escape (dia o) s w Hs Ho He Hw) as (x & E & Hx).
  destruct (parse_spelled o s x rest Hx) as (r & P & A & B & C).
  exists (34 :: x ++ [34]), r. split; [exact E|]. cbn [app]. rewrite <- app_assoc. cbn [app]. auto.
Qed.
Print Assumptions c29_escaped_round_trip.

(* the default options on both sides, on a two character string with an accent *)
Example c29_example :
  let s := lit "a/" ++ utf8 0xE9 ++ utf8 0x20AC ++ [10] in
  utf8_text (fun cp => cp < 0x10000) s /\
  exists w r, format_string s (writer_init wopts_default) = Ok w /\ wout w = [34] ++ lit "a\/\u00e9\u20ac\n" ++ [34] /\
    parse_string (reader_init ropts_default (wout w)) = Ok (s, r).
Proof.
  split.
  - cbn [app]. change (lit "a/") with (utf8 97 ++ utf8 47). rewrite <- !app_assoc.
    repeat (apply ut_cons; [reflexivity|reflexivity|]). change [10] with (utf8 10 ++ []).
    apply ut_cons; [reflexivity|reflexivity|constructor].
  - do 2 eexists. wit.
Qed.

(* Above U+FFFF the escape has more than four digits, and the reader stops after
   the fourth: U+10000 comes back as U+1000 followed by the digit 0. *)
Theorem c29_astral_refuted :
  exists s w r v, utf8_text (fun _ => True) s /\
    format_string s (writer_init wopts_default) = Ok w /\ werr w = false /\
    parse_string (reader_init ropts_default (wout w)) = Ok (v, r) /\ rerr r = None /\ v <> s.
Proof.
  exists (utf8 0x10000). do 2 eexists. exists (utf8 0x1000 ++ [48]). split.
  - rewrite <- (app_nil_r (utf8 0x10000)). apply ut_cons; [reflexivity|exact I|constructor].
  - split; [vm_compute; reflexivity|]. split; [reflexivity|]. split; [vm_compute; reflexivity|].
    split; [reflexivity|]. vm_compute. discriminate.
Qed.
Print Assumptions c29_astral_refuted.

(* ==== C30 ==== *)
Lemma no_validate_read s : byte_string s -> forall d, d_validate d = false -> forall fuel w,
  w_escape (wopt w) = false -> w_validate (wopt w) = false -> (length s <= fuel)%nat ->
  exists x, fstring_loop fuel s w = Ok (push x w) /\ spells d s x.
Proof.
  induction s as [|c s IH]; intros Hb d Hd fuel w We Wv Hf.
  { exists []. split; [|constructor]. destruct fuel; cbn; now rewrite push_nil. }
  destruct fuel as [|f]; [cbn in Hf; lia|]. cbn [fstring_loop]. rewrite We, Wv, !andb_false_r.
  inversion Hb as [|? ? H1 H2]; subst.
  destruct (IH H2 d Hd f (push (format_char c) w) We Wv) as (x & E & Hx); [cbn in Hf; nlia|].
  exists (format_char c ++ x). rewrite E, push_push. split; [reflexivity|].
  change (c :: s) with ([c] ++ s). constructor; [|exact Hx].
  destruct (N.ltb_spec c 128) as [L|L]; [now apply format_char_ok|].
  rewrite format_char_high by exact L. apply sp_high; auto.
Qed.

(* Without escaping: a string the writer accepts is read back unchanged, if the
   writer validated it or the reader does not. *)
Theorem c30_raw_round_trip : forall (s : str) (w w' : writer) (o : ropts) (rest : str),
  byte_string s -> w_escape (wopt w) = false ->
  (w_validate (wopt w) = true \/ o_validate o = false) ->
  format_string s w = Ok w' -> werr w' = false ->
  exists text r,
    w' = push text w /\
    parse_string (reader_init o (text ++ rest)) = Ok (s, r) /\ rerr r = None /\ rin r = rest.
Proof.
  intros s w w' o rest Hb He Hv Hf Hw. unfold format_string in Hf.
  apply bind_ok in Hf as (w1 & E1 & E2). apply ok_inj in E2. subst w'.
  destruct (fstring_raw (dia o) (length s) s (push [34] w) w1 He Hb E1 Hw) as [_ H].
  destruct (H Hv) as (x & -> & Hx). destruct (parse_spelled o s x rest Hx) as (r & P & A & B & C).
  exists (34 :: x ++ [34]), r. rewrite !push_push. split; [reflexivity|].
  cbn [app]. rewrite <- app_assoc. cbn [app]. auto.
Qed.
Print Assumptions c30_raw_round_trip.

(* Without validation on either side the writer accepts every byte string. *)
Theorem c30_unvalidated_bytes : forall (s : str) (w : writer) (o : ropts) (rest : str),
  byte_string s -> w_escape (wopt w) = false -> w_validate (wopt w) = false -> o_validate o = false ->
  exists text r,
    format_string s w = Ok (push text w) /\
    parse_string (reader_init o (text ++ rest)) = Ok (s, r) /\ rerr r = None /\ rin r = rest.
Proof.
  intros s w o rest Hb He Hv Ho. unfold format_string.
  destruct (no_validate_read s Hb (dia o) Ho (length s) (push [34] w) He Hv (le_n _)) as (x & E & Hx).
  rewrite E. cbn [bind]. rewrite !push_push. destruct (parse_spelled o s x rest Hx) as (r & P & A & B & C).
  exists ([34] ++ x ++ [34]), r. rewrite <- app_assoc. split; [reflexivity|]. cbn [app]. rewrite <- app_assoc. cbn [app]. auto.
Qed.
Print Assumptions c30_unvalidated_bytes.

Example c30_example :
  let o := mkWO false false false true in
  let s := lit "x" ++ utf8 0x1F600 ++ [34; 92] in
  exists w r, format_string s (writer_init o) = Ok w /\ werr w = false /\
    parse_string (reader_init ropts_default (wout w)) = Ok (s, r) /\ rerr r = None.
Proof. do 2 eexists. wit. Qed.
Example c30_example_bytes :
  exists w r, format_string [255; 192; 34] (writer_init (mkWO false false false false)) = Ok w /\
    parse_string (reader_init (mkOpts false true false) (wout w)) = Ok ([255; 192; 34], r).
Proof. do 2 eexists. wit. Qed.

(* ==== C31 ==== *)
Lemma utf8_text_spells d x : d_validate d = true -> raw_text x -> utf8_text any_cp x -> spells d x x.
Proof.
  intros Hd Hr H. induction H as [|cp s Hc _ Hs IH]; [constructor|].
  destruct Hr as (Hb & H10 & H34 & H92). unfold byte_string in Hb. apply Forall_app in Hb as [B1 B2].
  constructor.
  - destruct (N.ltb_spec cp 0x80) as [L|L].
    + unfold utf8 in *. destruct (N.ltb_spec cp 0x80); [|lia].
      apply sp_plain; [lia|intro; apply H10; now left|intro; apply H34; now left|intro; apply H92; now left].
    + apply sp_utf8; [exact Hd|]. exists cp. auto.
  - apply IH. split; [exact B2|]. repeat split; intro; [apply H10|apply H34|apply H92]; apply in_or_app; now right.
Qed.

(* The reader: a terminated string of raw bytes (no escape, no line end) is accepted
   exactly when it is UTF-8 in shortest form, and then unchanged; otherwise an error
   is recorded.  The byte 0xFF is excluded, see the refutation. *)
Theorem c31_reader_accepts_exactly_utf8 : forall (o : ropts) (x rest : str),
  o_validate o = true -> raw_text x -> ~ In 255 x -> byte_string rest ->
  exists v r, parse_string (reader_init o (34 :: x ++ 34 :: rest)) = Ok (v, r) /\
    (rerr r = None <-> utf8_text (fun _ => True) x) /\
    (rerr r = None -> v = x /\ rin r = rest).
Proof.
  intros o x rest Hv Hx H255 Hr.
  destruct (lex_string o [] (reader_init o (34 :: x ++ 34 :: rest)) (x ++ 34 :: rest) [] (bl_nil _) (R_init _ _)) as (r1 & K1 & E1).
  unfold read_string in E1. pose proof (R_in _ _ _ _ _ K1) as Hin. apply R_reset in K1.
  destruct (string_loop_raw (rfuel r1) o x rest [] TNone (reset_buf r1) Hx H255 Hr Hv K1) as (r2 & E2 & H2).
  { unfold rfuel. rewrite Hin, app_length. nlia. }
  rewrite E2 in E1. cbn [bind] in E1.
  assert (EP : parse_string (reader_init o (34 :: x ++ 34 :: rest)) = Ok (rbuf r2, r2)).
  { unfold parse_string, expect_tok, next_tok. cbn [rtok reader_init same_type]. rewrite E1. reflexivity. }
  exists (rbuf r2), r2. split; [exact EP|].
  destruct H2 as [(Hok & Hu & K2)|Herr].
  - split; [split; auto; intros _; now apply rok_err|]. intros _. split; [exact (R_buf _ _ _ _ _ K2)|exact (R_in _ _ _ _ _ K2)].
  - split; [|contradiction]. split; [contradiction|]. intro Hu. exfalso.
    destruct (parse_spelled o x x rest (utf8_text_spells (dia o) x Hv Hx Hu)) as (r & P & A & _).
    rewrite P in EP. apply ok_inj in EP. apply pair_equal_spec in EP as [_ <-]. contradiction.
Qed.
Print Assumptions c31_reader_accepts_exactly_utf8.

(* The writer (not escaping): an error is recorded exactly when the string is not
   UTF-8 in shortest form. *)
Theorem c31_writer_accepts_exactly_utf8 : forall (w : writer) (s : str),
  w_escape (wopt w) = false -> w_validate (wopt w) = true -> werr w = false ->
  byte_string s -> ~ In 255 s ->
  exists w', format_string s w = Ok w' /\ (werr w' = false <-> utf8_text (fun _ => True) s).
Proof.
  intros w s He Hv Hw Hb H255. unfold format_string.
  destruct (fstring_total (length s) s (push [34] w) He Hb H255 (le_n _)) as (w1 & E1). rewrite E1. cbn [bind].
  eexists. split; [reflexivity|]. cbn [push werr]. split; intro H.
  - destruct (fstring_raw (mkDialect false true true) (length s) s (push [34] w) w1 He Hb E1 H) as [H1 _]. now apply H1.
  - destruct (fstring_valid s H (length s) (push [34] w) He Hv Hw (le_n _)) as (x & E). rewrite E in E1. apply ok_inj in E1. now subst.
Qed.
Print Assumptions c31_writer_accepts_exactly_utf8.

Lemma in3 (a b c x : N) : In x [a; b; c] -> x = a \/ x = b \/ x = c.
Proof. cbn. intuition auto. Qed.
Example c31_example_accept :
  raw_text (utf8 0xD800 ++ utf8 0x1FFFFF) /\ ~ In 255 (utf8 0xD800 ++ utf8 0x1FFFFF) /\
  exists r, parse_string (reader_init ropts_default ([34] ++ utf8 0xD800 ++ utf8 0x1FFFFF ++ [34])) =
            Ok (utf8 0xD800 ++ utf8 0x1FFFFF, r) /\ rerr r = None.
Proof.
  vm_compute (utf8 _ ++ utf8 _). vm_compute ([34] ++ _). split; [|split].
  - split; [repeat constructor|]. cbn. repeat split; intuition discriminate.
  - cbn. intuition discriminate.
  - eexists. split; vm_compute; reflexivity.
Qed.
(* overlong, truncated, stray continuation, five byte form *)
Example c31_example_reject : forall x, In x [[0xC0; 0x80]; [0xE2; 0x82]; [0x80]; [0xF8; 0x88; 0x80; 0x80; 0x80]] ->
  exists v r, parse_string (reader_init ropts_default ([34] ++ x ++ [34])) = Ok (v, r) /\ rerr r <> None.
Proof.
  intros x H. repeat (destruct H as [<-|H]; [do 2 eexists; split; [vm_compute; reflexivity|vm_compute; discriminate]|]). destruct H.
Qed.

(* The byte 0xFF makes both compute clz(0), which is undefined, instead of
   reporting an error. *)
Theorem c31_byte_ff_refuted :
  parse_string (reader_init ropts_default [34; 255; 34]) = UB /\
  format_string [255] (writer_init (mkWO false false false true)) = UB /\
  format_string [255] (writer_init wopts_default) = UB.
Proof. wit. Qed.
Print Assumptions c31_byte_ff_refuted.

(* The escaping writer does not check for the shortest form. *)
Theorem c31_escaping_writer_overlong_refuted :
  exists w, format_string [0xC0; 0x80] (writer_init wopts_default) = Ok w /\ werr w = false.
Proof. eexists. split; vm_compute; reflexivity. Qed.
Print Assumptions c31_escaping_writer_overlong_refuted.

(* ==== C32 ==== *)
Theorem c32_escape_decodes : forall (o : ropts) (a b c e va vb vc ve : N) (before after v1 v2 rest : str),
  o_unescape o = true ->
  hex_digit a va -> hex_digit b vb -> hex_digit c vc -> hex_digit e ve ->
  spells (dia o) v1 before -> spells (dia o) v2 after ->
  exists r, parse_string (reader_init o (34 :: (before ++ [92; 117; a; b; c; e] ++ after) ++ 34 :: rest)) =
            Ok (v1 ++ utf8 (va * 4096 + vb * 256 + vc * 16 + ve) ++ v2, r) /\
            rerr r = None /\ rin r = rest.
Proof.
  intros o a b c e va vb vc ve before after v1 v2 rest Ho Ha Hb Hc He H1 H2.
  assert (Hs : spells (dia o) (v1 ++ utf8 (va * 4096 + vb * 256 + vc * 16 + ve) ++ v2) (before ++ [92; 117; a; b; c; e] ++ after)).
  { clear rest. revert H1. induction 1 as [|v x vs xs S1 Sx IH].
    - change ([] ++ [92; 117; a; b; c; e] ++ after) with ([92; 117; a; b; c; e] ++ after). rewrite app_nil_l.
      constructor; [|exact H2]. now apply sp_u.
    - rewrite <- !app_assoc. constructor; auto. }
  destruct (parse_spelled o _ _ rest Hs) as (r & P & A & B & C). exists r. auto.
Qed.
Print Assumptions c32_escape_decodes.

(* fewer than four hexadecimal digits, then a byte that is not one *)
Theorem c32_bad_escape_reported : forall (o : ropts) (before v digits rest : str) (c : N),
  spells (dia o) v before ->
  (forall d, In d digits -> exists n, hex_digit d n) -> (length digits < 4)%nat -> (forall n, ~ hex_digit c n) ->
  exists s r err, parse_string (reader_init o (34 :: before ++ [92; 117] ++ digits ++ c :: rest)) = Ok (s, r) /\
    rerr r = Some err /\ err_cause err = EHex c.
Proof.
  intros o before v ds rest c Hs Hd Hl Hc.
  destruct (lex_string o [] (reader_init o (34 :: before ++ [92; 117] ++ ds ++ c :: rest)) (before ++ [92; 117] ++ ds ++ c :: rest) [] (bl_nil _) (R_init _ _)) as (r1 & K1 & E1).
  destruct (bad_escape o v before ds c rest _ _ _ Hs Hd Hc Hl K1) as (r2 & e & E2 & A & B).
  rewrite E2 in E1. cbn [bind] in E1. exists (rbuf r2), r2, e.
  unfold parse_string, expect_tok, next_tok. cbn [rtok reader_init same_type]. rewrite E1. auto.
Qed.
Print Assumptions c32_bad_escape_reported.

Example c32_example :
  exists r, parse_string (reader_init ropts_default ([34] ++ lit "x\u20aC\u0041" ++ [34])) = Ok (lit "x" ++ utf8 0x20AC ++ lit "A", r) /\ rerr r = None.
Proof. eexists. split; vm_compute; reflexivity. Qed.
Example c32_example_bad :
  exists s r e, parse_string (reader_init ropts_default ([34] ++ lit "\u12g4" ++ [34])) = Ok (s, r) /\ rerr r = Some e /\ err_cause e = EHex 103.
Proof. do 3 eexists. wit. Qed.

(* ==== C33 ==== *)
Theorem c33_integers_round_trip : forall (z : Z) (w : writer) (o : ropts) (rest : str),
  int64 z -> (rest = [] \/ num_stop rest) ->
  exists text r,
    format_int z w = push text w /\ int_text z text /\
    parse_int (reader_init o (text ++ rest)) = Ok (z, r) /\ rerr r = None /\ rin r = rest.
Proof.
  intros z w o rest Hz Hr. exists (show_int z).
  assert (Ht : tok_text (dia o) (AInt z) (show_int z)) by (constructor; apply show_int_text).
  unfold parse_int, expect_tok, next_tok.
  destruct Hr as [->|Hr].
  - pose proof (R_init o (show_int z)) as Hi.
    destruct (lex_num_end o [] (AInt z) (show_int z) [] (reader_init o (show_int z)) (bl_nil _) Ht I Hi) as (r & b & E & (A & B & C & D & F & G) & P).
    rewrite app_nil_r. cbn [rtok reader_init same_type]. rewrite E. exists r. cbn [bind tok_of same_type as_int].
    cbn [payload] in P. rewrite C, (stol_ok z b P Hz). cbn [bind]. split; [reflexivity|]. split; [apply show_int_text|]. auto.
  - assert (Hl : R o ([] ++ show_int z ++ rest) [] TNone (reader_init o (show_int z ++ rest))) by apply R_init.
    destruct (lex_ok o [] (AInt z) (show_int z) rest [] _ (bl_nil _) Ht (fun _ => Hr) Hl) as (r & b & E & K & P).
    cbn [rtok reader_init same_type]. rewrite E. exists r. cbn [bind tok_of same_type as_int].
    cbn [payload] in P. rewrite (R_buf _ _ _ _ _ K), (stol_ok z b P Hz). cbn [bind].
    split; [reflexivity|]. split; [apply show_int_text|]. split; [reflexivity|]. split; [|eapply R_in; eauto].
    apply rok_err. eapply R_ok; eauto.
Qed.
Print Assumptions c33_integers_round_trip.

Example c33_example :
  int64 (- 2 ^ 63) /\ num_stop (lit ",1") /\
  exists r, parse_int (reader_init ropts_default (lit "-9223372036854775808,1")) = Ok ((- 2 ^ 63)%Z, r).
Proof.
  split; [unfold int64; lia|]. split; [exists 44, [49]; unfold digit_char; repeat split; try discriminate; lia|].
  eexists. vm_compute. reflexivity.
Qed.
(* Outside of 64 bits reading throws: the bound is the right one. *)
Example c33_bound : parse_int (reader_init ropts_default (lit "9223372036854775808,")) = Throw.
Proof. vm_compute. reflexivity. Qed.
