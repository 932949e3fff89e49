(* ProofJson1.v - the tokenizer on well formed input: every token text is read as
   the token it denotes and nothing more is consumed. *)
From Coq Require String. Import String.StringSyntax.
From Verif Require Import Base Dec ModelJson SpecJson.
Local Open Scope outcome_scope.
Local Open Scope N_scope.

Definition dia (o : ropts) : dialect := mkDialect (o_comments o) (o_unescape o) (o_validate o).

(* A reader in good standing with unread input s, buffer b and look-ahead t. *)
Definition R (o : ropts) (s b : str) (t : token) (r : reader) : Prop :=
  exists p l, r = mkR s false false None p l b t o.

Lemma R_ok o s b t r : R o s b t r -> rok r = true.
Proof. intros (p & l & ->); reflexivity. Qed.
Lemma R_in o s b t r : R o s b t r -> rin r = s.
Proof. intros (p & l & ->); reflexivity. Qed.
Lemma R_buf o s b t r : R o s b t r -> rbuf r = b.
Proof. intros (p & l & ->); reflexivity. Qed.
Lemma R_tok o s b t r : R o s b t r -> rtok r = t.
Proof. intros (p & l & ->); reflexivity. Qed.
Lemma R_opt o s b t r : R o s b t r -> ropt r = o.
Proof. intros (p & l & ->); reflexivity. Qed.

Lemma R_pop o c s b t r : R o (c :: s) b t r -> exists r', popc r = (c, r') /\ R o s b t r'.
Proof.
  intros (p & l & ->). eexists. split; [reflexivity|]. exists (p + 1), l. reflexivity.
Qed.

Lemma R_peek o c s b t r : R o (c :: s) b t r -> peekc r = (c, r).
Proof. intros (p & l & ->). reflexivity. Qed.

Lemma R_save o c s b t r : R o s b t r -> R o s (b ++ [c]) t (save c r).
Proof. intros (p & l & ->). exists p, l. reflexivity. Qed.

Lemma R_reset o s b t r : R o s b t r -> R o s [] t (reset_buf r).
Proof. intros (p & l & ->). exists p, l. reflexivity. Qed.

Lemma R_newline o s b t r : R o s b t r -> R o s b t (newline r).
Proof. intros (p & l & ->). exists 1, (l + 1). reflexivity. Qed.

Lemma R_settok o s b t t' r : R o s b t r -> R o s b t' (set_tok t' r).
Proof. intros (p & l & ->). exists p, l. reflexivity. Qed.

(* list byte and list N are the same type but not the same term *)
Ltac nlia := unfold str, byte in *; lia.

(* lia after hiding quotients and remainders, which it would unfold *)
Ltac glia :=
  repeat (match goal with
          | |- context [N.div ?a ?b] => let q := fresh "q" in set (q := N.div a b) in *; clearbody q
          | |- context [N.modulo ?a ?b] => let q := fresh "q" in set (q := N.modulo a b) in *; clearbody q
          | H : context [N.div ?a ?b] |- _ => let q := fresh "q" in set (q := N.div a b) in *; clearbody q
          | H : context [N.modulo ?a ?b] |- _ => let q := fresh "q" in set (q := N.modulo a b) in *; clearbody q
          end); lia.

Ltac rpop H r' H' :=
  let E := fresh "E" in
  destruct (R_pop _ _ _ _ _ _ H) as (r' & E & H'); rewrite E.

(* ---- blanks ---- *)
Lemma skip_comment_ok o b s bf t : forall r fuel,
  ~ In 10 b -> R o (b ++ 10 :: s) bf t r -> (length b < fuel)%nat ->
  exists r', skip_comment fuel r = Ok r' /\ R o s bf t r'.
Proof.
  induction b as [|c b IH]; intros r fuel Hn Hr Hf; (destruct fuel as [|fuel]; [lia|]);
    cbn [skip_comment]; rewrite (R_ok _ _ _ _ _ Hr); cbn [app length] in *; rpop Hr r' Hr'.
  - rewrite N.eqb_refl. eauto.
  - destruct (N.eqb_spec c c_nl) as [->|Hc]; [exfalso; apply Hn; now left|].
    apply (IH r' fuel); auto; [intro X; apply Hn; now right | lia].
Qed.

Lemma isspace_iff c : isspace c = true <-> space_char c.
Proof.
  unfold isspace, space_char. rewrite orb_true_iff, andb_true_iff, N.eqb_eq, !N.leb_le. tauto.
Qed.
Lemma isdigit_iff c : isdigit c = true <-> digit_char c.
Proof. unfold isdigit, digit_char. rewrite andb_true_iff, !N.leb_le. tauto. Qed.
Lemma isdigit_false c : isdigit c = false <-> ~ digit_char c.
Proof. rewrite <- isdigit_iff. destruct (isdigit c); intuition congruence. Qed.

Lemma next_char_ok o w : blank (dia o) w -> forall c s bf t r fuel,
  isspace c = false -> (c = c_slash -> forall s', s <> 47 :: s') -> (c = c_slash -> s <> []) ->
  R o (w ++ c :: s) bf t r -> (length w < fuel)%nat ->
  exists r', next_char fuel r = Ok (c, r') /\ R o s bf t r'.
Proof.
  induction 1 as [|a w Ha Hw IH|b w Hd Hb Hw IH]; intros c s bf t r fuel Hc Hs Hs2 Hr Hf;
    (destruct fuel as [|fuel]; [lia|]); cbn [next_char]; rewrite (R_ok _ _ _ _ _ Hr);
    cbn [app length] in *; rpop Hr r1 H1.
  - assert (H1' : R o s bf t (if c =? c_nl then newline r1 else r1))
      by (destruct (c =? c_nl); [apply R_newline|]; assumption).
    set (r1' := if c =? c_nl then newline r1 else r1) in *. clearbody r1'.
    rewrite Hc. destruct (N.eqb_spec c c_slash) as [->|Hn].
    + destruct s as [|d s]; [exfalso; now apply Hs2|].
      rewrite (R_peek _ _ _ _ _ _ H1'). destruct (N.eqb_spec d c_slash) as [->|]; eauto.
      exfalso. exact (Hs eq_refl s eq_refl).
    + eauto.
  - rewrite (proj2 (isspace_iff a) Ha).
    apply (IH c s bf t _ fuel Hc Hs Hs2); [|lia].
    destruct (a =? c_nl); [apply R_newline|]; assumption.
  - change (47 =? c_nl) with false. cbv iota. change (isspace 47) with false. cbv iota.
    change (47 =? c_slash) with true. cbv iota.
    rewrite (R_peek _ _ _ _ _ _ H1). change (47 =? c_slash) with true. cbv iota.
    rewrite (R_opt _ _ _ _ _ H1). cbn [dia d_comments] in Hd. rewrite Hd.
    assert (H1b : R o ((47 :: b) ++ 10 :: (w ++ c :: s)) bf t r1).
    { rewrite <- !app_assoc in H1. cbn [app] in *. assumption. }
    destruct (skip_comment_ok o (47 :: b) (w ++ c :: s) bf t r1 (rfuel r1)) as (r2 & E2 & H2); auto.
    { intros [X|X]; [discriminate|contradiction]. }
    { unfold rfuel. rewrite (R_in _ _ _ _ _ H1b), app_length. cbn. lia. }
    rewrite E2. cbn [bind].
    apply (IH c s bf t r2 fuel Hc Hs Hs2 H2). rewrite app_length in Hf. cbn [length] in Hf. nlia.
Qed.

(* ---- bit arithmetic ---- *)
Lemma land_ones_mod a n : N.land a (N.ones n) = a mod 2 ^ n.
Proof. apply N.land_ones. Qed.
Lemma land63 a : N.land a 0x3F = a mod 64.
Proof. change 0x3F with (N.ones 6). apply N.land_ones. Qed.
Lemma lor_add a b n : b < 2 ^ n -> N.lor (N.shiftl a n) b = a * 2 ^ n + b.
Proof.
  intro Hb. rewrite <- N.shiftl_mul_pow2.
  assert (Hl : N.land (N.shiftl a n) b = 0).
  { apply N.bits_inj; intro k. rewrite N.land_spec, N.bits_0.
    destruct (N.lt_ge_cases k n) as [Hk|Hk].
    - rewrite N.shiftl_spec_low by assumption. reflexivity.
    - assert (Hz : N.testbit b k = false).
      { destruct (N.eq_dec b 0) as [->|Hb0]; [apply N.bits_0|].
        apply N.bits_above_log2. apply N.log2_lt_pow2 in Hb; lia. }
      rewrite Hz. apply andb_false_r. }
  symmetry. rewrite N.add_nocarry_lxor by assumption.
  apply N.bits_inj; intro k.
  rewrite N.lxor_spec, N.lor_spec.
  assert (Hk : N.testbit (N.land (N.shiftl a n) b) k = false) by (rewrite Hl; apply N.bits_0).
  rewrite N.land_spec in Hk.
  destruct (N.testbit (N.shiftl a n) k), (N.testbit b k); cbn in *; congruence.
Qed.
Lemma lor64 a b : b < 64 -> N.lor (N.shiftl a 6) b = a * 64 + b.
Proof. intro H. change 64 with (2 ^ 6). apply lor_add. exact H. Qed.
Lemma lor16 a b : b < 16 -> N.lor (N.shiftl a 4) b = a * 16 + b.
Proof. intro H. change 16 with (2 ^ 4). apply lor_add. exact H. Qed.
Lemma land_comm_ones a m : N.land a m = N.land m a.
Proof. apply N.land_comm. Qed.

(* for all n below a bound, by computation *)
Fixpoint check_below (n : nat) (f : N -> bool) : bool :=
  match n with O => true | S n' => f (N.of_nat n') && check_below n' f end.
Lemma check_below_ok n f : check_below n f = true -> forall x, x < N.of_nat n -> f x = true.
Proof.
  induction n as [|n IH]; intros H x Hx; [lia|].
  cbn in H. apply andb_true_iff in H as [H1 H2].
  destruct (N.eq_dec x (N.of_nat n)) as [->|Hne]; auto. apply IH; auto. lia.
Qed.
Lemma byte_check f : check_below 256 f = true -> forall c, c < 256 -> f c = true.
Proof. intros H c Hc. apply (check_below_ok 256 f H). exact Hc. Qed.

Lemma testbit7 c : c < 256 -> N.testbit c 7 = (128 <=? c).
Proof.
  intro Hc. apply eqb_prop.
  apply (byte_check (fun c => Bool.eqb (N.testbit c 7) (128 <=? c))); auto.
Qed.

Lemma cont_byte c : c < 256 -> (N.land c 0xC0 =? 0x80) = ((128 <=? c) && (c <? 192)).
Proof.
  intro Hc. apply eqb_prop.
  apply (byte_check (fun c => Bool.eqb (N.land c 0xC0 =? 0x80) ((128 <=? c) && (c <? 192)))); auto.
Qed.

Definition lead_table (c : byte) : option N :=
  if c <? 128 then Some 0 else if c <? 192 then Some 1 else if c <? 224 then Some 2
  else if c <? 240 then Some 3 else if c <? 248 then Some 4 else if c <? 252 then Some 5
  else if c <? 254 then Some 6 else if c <? 255 then Some 7 else None.
Lemma lead_ones_table c : c < 256 -> lead_ones c = lead_table c.
Proof.
  intro Hc.
  pose (f := fun c => match lead_ones c, lead_table c with
                      | Some a, Some b => a =? b | None, None => true | _, _ => false end).
  assert (H : f c = true) by (apply byte_check; [reflexivity|assumption]).
  unfold f in H. destruct (lead_ones c), (lead_table c); try discriminate; auto.
  apply N.eqb_eq in H. congruence.
Qed.

(* encode1 against the arithmetic spec *)
Lemma lor_head x k h : x < 2 ^ k -> N.lor x (h * 2 ^ k) = h * 2 ^ k + x.
Proof. intro H. rewrite N.lor_comm, <- N.shiftl_mul_pow2. rewrite lor_add by assumption. now rewrite N.shiftl_mul_pow2. Qed.

Lemma shiftr_div a n : N.shiftr a n = a / 2 ^ n.
Proof. apply N.shiftr_div_pow2. Qed.

Lemma mod_lt' a b : b <> 0 -> a mod b < b.
Proof. apply N.mod_lt. Qed.

Lemma enc_cont code p : encode1 code p 0x3F 0x80 = 0x80 + (code / 2 ^ (6 * p)) mod 64.
Proof.
  unfold encode1. rewrite shiftr_div, land63.
  change 0x80 with (2 * 2 ^ 6).
  apply (lor_head ((code / 2 ^ (6 * p)) mod 64) 6 2). apply N.mod_lt. discriminate.
Qed.
Lemma enc_head2 code : code < 0x800 -> encode1 code 1 0x1F 0xC0 = 0xC0 + code / 64.
Proof.
  intro H. unfold encode1. rewrite shiftr_div. change 0x1F with (N.ones 5). rewrite N.land_ones.
  change (2 ^ (6 * 1)) with 64. change 0xC0 with (6 * 2 ^ 5).
  rewrite (lor_head _ 5 6); [|apply N.mod_lt; discriminate].
  rewrite N.mod_small; [reflexivity|]. apply N.div_lt_upper_bound; [discriminate|]. exact H.
Qed.
Lemma enc_head3 code : code < 0x10000 -> encode1 code 2 0x0F 0xE0 = 0xE0 + code / 4096.
Proof.
  intro H. unfold encode1. rewrite shiftr_div. change 0x0F with (N.ones 4). rewrite N.land_ones.
  change (2 ^ (6 * 2)) with 4096. change 0xE0 with (14 * 2 ^ 4).
  rewrite (lor_head _ 4 14); [|apply N.mod_lt; discriminate].
  rewrite N.mod_small; [reflexivity|]. apply N.div_lt_upper_bound; [discriminate|]. exact H.
Qed.

Lemma save_code_ok o code s b t r : code < 0x10000 -> R o s b t r ->
  exists r', save_code code r = Ok r' /\ R o s (b ++ utf8 code) t r'.
Proof.
  intros Hc Hr. unfold save_code, utf8.
  destruct (N.leb_spec code 0x7F).
  { destruct (N.ltb_spec code 0x80); [|lia]. eexists; split; [reflexivity|]. now apply R_save. }
  destruct (N.ltb_spec code 0x80); [lia|].
  destruct (N.leb_spec code 0x7FF).
  { destruct (N.ltb_spec code 0x800); [|lia]. eexists; split; [reflexivity|].
    rewrite enc_head2 by assumption. rewrite enc_cont. change (2 ^ (6 * 0)) with 1. rewrite N.div_1_r.
    apply (R_save o (0x80 + code mod 64)) with (b := b ++ [0xC0 + code / 64]) in Hr
      || (assert (Hr2 := R_save o (0xC0 + code / 64) s b t r Hr);
          apply (R_save o (0x80 + code mod 64)) in Hr2; rewrite <- app_assoc in Hr2; exact Hr2). }
  destruct (N.ltb_spec code 0x800); [lia|].
  destruct (N.leb_spec code 0xFFFF); [|lia].
  destruct (N.ltb_spec code 0x10000); [|lia]. eexists; split; [reflexivity|].
  rewrite enc_head3 by assumption. rewrite !enc_cont. change (2 ^ (6 * 0)) with 1. rewrite N.div_1_r.
  change (2 ^ (6 * 1)) with 64.
  assert (K3 := R_save o (0xE0 + code / 4096) s b t r Hr).
  apply (R_save o (0x80 + (code / 64) mod 64)) in K3.
  apply (R_save o (0x80 + code mod 64)) in K3. rewrite <- !app_assoc in K3. exact K3.
Qed.

Lemma hexval_iff c v : hexval c = Some v <-> hex_digit c v.
Proof.
  unfold hexval, hex_digit.
  destruct (N.leb_spec 48 c), (N.leb_spec c 57), (N.leb_spec 97 c), (N.leb_spec c 102),
    (N.leb_spec 65 c), (N.leb_spec c 70); cbn [andb];
    (split; [intro X; try discriminate X; injection X as <-; lia
            |intro X; try (exfalso; lia); f_equal; lia]).
Qed.
Lemma hex_lt c v : hex_digit c v -> v < 16.
Proof. unfold hex_digit. lia. Qed.

Lemma hex_loop_ok o a b c e va vb vc ve s bf t r :
  hex_digit a va -> hex_digit b vb -> hex_digit c vc -> hex_digit e ve ->
  R o (a :: b :: c :: e :: s) bf t r ->
  exists r', hex_loop 4 0 r = (va * 4096 + vb * 256 + vc * 16 + ve, r') /\ R o s bf t r'.
Proof.
  intros Ha Hb Hc He Hr. unfold hex_loop.
  pose proof (hex_lt _ _ Ha). pose proof (hex_lt _ _ Hb).
  pose proof (hex_lt _ _ Hc). pose proof (hex_lt _ _ He).
  apply hexval_iff in Ha, Hb, Hc, He.
  rewrite (R_ok _ _ _ _ _ Hr). rpop Hr r1 K1. rewrite Ha.
  rewrite (R_ok _ _ _ _ _ K1). rpop K1 r2 K2'. rewrite Hb.
  rewrite (R_ok _ _ _ _ _ K2'). rpop K2' r3 K3'. rewrite Hc.
  rewrite (R_ok _ _ _ _ _ K3'). rpop K3' r4 K4'. rewrite He.
  exists r4. split; auto.
  rewrite !lor16 by assumption. f_equal. lia.
Qed.

Lemma raw_hex_ok o a b c e va vb vc ve s bf t r :
  hex_digit a va -> hex_digit b vb -> hex_digit c vc -> hex_digit e ve ->
  R o (a :: b :: c :: e :: s) bf t r ->
  R o s (bf ++ [a; b; c; e]) t (raw_hex_loop 4 r).
Proof.
  intros Ha Hb Hc He Hr. unfold raw_hex_loop.
  apply hexval_iff in Ha, Hb, Hc, He.
  rewrite (R_ok _ _ _ _ _ Hr). rpop Hr r1 H1. rewrite Ha. apply (R_save o a) in H1.
  rewrite (R_ok _ _ _ _ _ H1). rpop H1 r2 H2. rewrite Hb. apply (R_save o b) in H2.
  rewrite (R_ok _ _ _ _ _ H2). rpop H2 r3 H3. rewrite Hc. apply (R_save o c) in H3.
  rewrite (R_ok _ _ _ _ _ H3). rpop H3 r4 H4. rewrite He. apply (R_save o e) in H4.
  rewrite <- !app_assoc in H4. exact H4.
Qed.

(* ---- raw multi-byte sequences ---- *)
Lemma cont_loop_ok o cs : forall s bf t r code,
  Forall (fun c => 128 <= c < 192) cs -> R o (cs ++ s) bf t r ->
  exists r', cont_loop (length cs) code r
             = (fold_left (fun a c => a * 64 + (c - 128)) cs code, r')
             /\ R o s (bf ++ cs) t r'.
Proof.
  induction cs as [|c cs IH]; intros s bf t r code Hf Hr; cbn [length cont_loop app] in *.
  - rewrite app_nil_r. eauto.
  - inversion Hf as [|? ? Hc Hf']; subst.
    rewrite (R_ok _ _ _ _ _ Hr). rpop Hr r1 H1. apply (R_save o c) in H1.
    assert (Hb : N.land c 0xC0 =? 0x80 = true).
    { rewrite cont_byte by lia. apply andb_true_iff. rewrite N.leb_le, N.ltb_lt. lia. }
    rewrite Hb. destruct (IH s (bf ++ [c]) t _ (N.lor (N.shiftl code 6) (N.land c 63)) Hf' H1)
      as (r2 & E2 & H2).
    exists r2. cbn [fold_left]. rewrite E2. rewrite <- app_assoc in H2. split; auto.
    do 2 f_equal. rewrite land63. rewrite lor64 by (apply N.mod_lt; discriminate).
    f_equal. replace c with (c - 128 + 2 * 64) at 1 by lia.
    rewrite N.mod_add by discriminate. apply N.mod_small. lia.
Qed.

Lemma lead_mask c bytes : lead_ones c = Some bytes -> N.land c (N.shiftl 1 (7 - bytes) - 1) = c mod 2 ^ (7 - bytes).
Proof.
  intros _. rewrite N.shiftl_1_l. rewrite <- N.pred_sub, <- N.ones_equiv.
  apply N.land_ones.
Qed.

Lemma cons_inv {A} (x y : A) l m : x :: l = y :: m -> x = y /\ l = m.
Proof. intro H. injection H. auto. Qed.

Lemma validate_ok o s' rest b t r c :
  utf8_multi (c :: s') -> R o (s' ++ rest) b t r ->
  128 <= c < 256 /\ exists r', validate_unicode c r = Ok r' /\ R o rest (b ++ c :: s') t r'.
Proof.
  intros (cp & Hcp & E) Hr. unfold utf8 in E.
  destruct (N.ltb_spec cp 0x80) as [?|_]; [glia|].
  assert (Hcont : forall x, 128 <= 128 + x mod 64 < 192).
  { intro x. assert (x mod 64 < 64) by (apply N.mod_lt; discriminate). revert H. generalize (x mod 64). clear. intros n H. lia. }
  assert (Hdm64 := fun x => N.div_mod' x 64).
  destruct (N.ltb_spec cp 0x800) as [H2|H2].
  { apply cons_inv in E as [-> ->]. 
    assert (Hq : cp / 64 < 32) by (apply N.div_lt_upper_bound; glia).
    assert (Hq2 : 2 <= cp / 64) by (apply N.div_le_lower_bound; glia).
    split; [glia|]. unfold validate_unicode.
    assert (Hl : lead_ones (192 + cp / 64) = Some 2).
    { rewrite lead_ones_table by glia. unfold lead_table.
      repeat (match goal with |- context[if ?a <? ?b then _ else _] => destruct (N.ltb_spec a b); [try glia|] end).
      all: try glia. reflexivity. }
    rewrite Hl. cbv iota beta zeta. rewrite (lead_mask _ _ Hl).
    change ((4 <? 2) || (2 <? 2)) with false. cbv iota.
    apply (R_save o (192 + cp / 64)) in Hr.
    destruct (cont_loop_ok o [128 + cp mod 64] rest _ t _ ((192 + cp / 64) mod 2 ^ (7 - 2))
                (Forall_cons _ (Hcont cp) (Forall_nil _)) Hr) as (r' & E' & Hr').
    change (N.to_nat (2 - 1)) with (length [128 + cp mod 64]). rewrite E'. cbn [fold_left].
    replace ((192 + cp / 64) mod 2 ^ (7 - 2)) with (cp / 64).
    2:{ change (2 ^ (7 - 2)) with 32. replace (192 + cp / 64) with (cp / 64 + 6 * 32) by glia.
        rewrite N.mod_add by discriminate. symmetry. apply N.mod_small. glia. }
    replace (cp / 64 * 64 + (128 + cp mod 64 - 128)) with cp by (specialize (Hdm64 cp); glia).
    destruct (N.ltb_spec 0x7F cp); [|glia].
    exists r'. split; auto. rewrite <- app_assoc in Hr'. exact Hr'. }
  destruct (N.ltb_spec cp 0x10000) as [H3|H3].
  { apply cons_inv in E as [-> ->].
    assert (Hq : cp / 4096 < 16) by (apply N.div_lt_upper_bound; glia).
    split; [glia|]. unfold validate_unicode.
    assert (Hl : lead_ones (224 + cp / 4096) = Some 3).
    { rewrite lead_ones_table by glia. unfold lead_table.
      repeat (match goal with |- context[if ?a <? ?b then _ else _] => destruct (N.ltb_spec a b); [try glia|] end).
      all: try glia. reflexivity. }
    rewrite Hl. cbv iota beta zeta. rewrite (lead_mask _ _ Hl).
    change ((4 <? 3) || (3 <? 2)) with false. cbv iota.
    apply (R_save o (224 + cp / 4096)) in Hr.
    destruct (cont_loop_ok o [128 + (cp / 64) mod 64; 128 + cp mod 64] rest _ t _ ((224 + cp / 4096) mod 2 ^ (7 - 3))
                (Forall_cons _ (Hcont (cp / 64)) (Forall_cons _ (Hcont cp) (Forall_nil _))) Hr) as (r' & E' & Hr').
    change (N.to_nat (3 - 1)) with (length [128 + (cp / 64) mod 64; 128 + cp mod 64]). rewrite E'. cbn [fold_left].
    replace ((224 + cp / 4096) mod 2 ^ (7 - 3)) with (cp / 4096).
    2:{ change (2 ^ (7 - 3)) with 16. replace (224 + cp / 4096) with (cp / 4096 + 14 * 16) by glia.
        rewrite N.mod_add by discriminate. symmetry. apply N.mod_small. glia. }
    replace ((cp / 4096 * 64 + (128 + (cp / 64) mod 64 - 128)) * 64 + (128 + cp mod 64 - 128)) with cp.
    2:{ pose proof (Hdm64 cp) as Ha. pose proof (Hdm64 (cp / 64)) as Hb.
        rewrite N.div_div in Hb by discriminate. change (64 * 64) with 4096 in Hb. glia. }
    destruct (N.ltb_spec 0x7FF cp); [|glia].
    exists r'. split; auto. rewrite <- app_assoc in Hr'. exact Hr'. }
  apply cons_inv in E as [-> ->].
  assert (Hq : cp / 262144 < 8) by (apply N.div_lt_upper_bound; glia).
  split; [glia|]. unfold validate_unicode.
  assert (Hl : lead_ones (240 + cp / 262144) = Some 4).
  { rewrite lead_ones_table by glia. unfold lead_table.
    repeat (match goal with |- context[if ?a <? ?b then _ else _] => destruct (N.ltb_spec a b); [try glia|] end).
    all: try glia. reflexivity. }
  rewrite Hl. cbv iota beta zeta. rewrite (lead_mask _ _ Hl).
  change ((4 <? 4) || (4 <? 2)) with false. cbv iota.
  apply (R_save o (240 + cp / 262144)) in Hr.
  destruct (cont_loop_ok o [128 + (cp / 4096) mod 64; 128 + (cp / 64) mod 64; 128 + cp mod 64] rest _ t _
              ((240 + cp / 262144) mod 2 ^ (7 - 4))
              (Forall_cons _ (Hcont (cp / 4096)) (Forall_cons _ (Hcont (cp / 64)) (Forall_cons _ (Hcont cp) (Forall_nil _)))) Hr)
    as (r' & E' & Hr').
  change (N.to_nat (4 - 1)) with (length [128 + (cp / 4096) mod 64; 128 + (cp / 64) mod 64; 128 + cp mod 64]).
  rewrite E'. cbn [fold_left].
  replace ((240 + cp / 262144) mod 2 ^ (7 - 4)) with (cp / 262144).
  2:{ change (2 ^ (7 - 4)) with 8. replace (240 + cp / 262144) with (cp / 262144 + 30 * 8) by glia.
      rewrite N.mod_add by discriminate. symmetry. apply N.mod_small. glia. }
  replace (((cp / 262144 * 64 + (128 + (cp / 4096) mod 64 - 128)) * 64 + (128 + (cp / 64) mod 64 - 128)) * 64 + (128 + cp mod 64 - 128)) with cp.
  2:{ pose proof (Hdm64 cp) as Ha. pose proof (Hdm64 (cp / 64)) as Hb. pose proof (Hdm64 (cp / 4096)) as Hc.
      rewrite N.div_div in Hb by discriminate. change (64 * 64) with 4096 in Hb.
      rewrite N.div_div in Hc by discriminate. change (4096 * 64) with 262144 in Hc. glia. }
  destruct (N.ltb_spec 0xFFFF cp); [|glia].
  exists r'. split; auto. rewrite <- app_assoc in Hr'. exact Hr'.
Qed.
