(* ProofDump2.v - the texts of SpecDump are unambiguous (C83). *)
From Coq Require String. Import String.StringSyntax.
From Coq Require Import Permutation Sorted.
From Verif Require Import Base Dec ModelCore ModelScope ModelDump SpecCore SpecScope PropPrint SpecDump ProofCore ProofDump.

(* ---- splitting ---- *)
Lemma split_last (c : N) a b x y : ~ In c x -> ~ In c y -> a ++ c :: x = b ++ c :: y -> a = b /\ x = y.
Proof.
  intros Nx Ny E. apply (f_equal (@rev N)) in E. rewrite !rev_app_distr in E. cbn [rev] in E. rewrite <- !app_assoc in E. cbn [app] in E.
  apply split_at in E; [|rewrite <- in_rev; auto|rewrite <- in_rev; auto]. destruct E as [E1 E2].
  split; [rewrite <- (rev_involutive a), E2; apply rev_involutive|rewrite <- (rev_involutive x), E1; apply rev_involutive].
Qed.

(* ---- words and traits ---- *)
Lemma words_inj : forall l l', Forall word l -> Forall word l' ->
  concat (map (fun t => t ++ lit " ") l) ++ lit "]" = concat (map (fun t => t ++ lit " ") l') ++ lit "]" -> l = l'.
Proof.
  assert (Z : forall w l, word w -> lit "]" = concat (map (fun t => t ++ lit " ") (w :: l)) ++ lit "]" -> False).
  { intros w l [A B] E. destruct w as [|c w]; [congruence|]. cbn in E. injection E as E _. specialize (B c (or_introl eq_refl)). intuition congruence. }
  induction l as [|w l IH]; intros [|w' l'] Hl Hl' E.
  - reflexivity.
  - inversion Hl'; subst. exfalso. eapply Z; eauto.
  - inversion Hl; subst. exfalso. eapply Z; eauto.
  - inversion Hl as [|? ? A B]; inversion Hl' as [|? ? A' B']; subst. cbn [map concat] in E. rewrite <- !app_assoc in E. cbn [lit app] in E.
    apply split_at in E. 2:{ intro K. now apply (proj2 A) in K. } 2:{ intro K. now apply (proj2 A') in K. } destruct E as [-> E]. f_equal. now apply IH.
Qed.
Lemma traits_text_inj l l' : Forall word l -> Forall word l' -> traits_text l = traits_text l' -> l = l'.
Proof. intros A B E. unfold traits_text in E. apply app_inv_head in E. now apply words_inj. Qed.
Lemma words_no (c : N) l : (c = 10 \/ c = 91 \/ c = 58)%N -> Forall word l -> ~ In c (concat (map (fun t => t ++ lit " ") l) ++ lit "]").
Proof.
  intros Hc Hl K. apply in_app_or in K as [K|[<-|[]]]; [|intuition discriminate]. apply in_concat in K as (x & Hx & K). apply in_map_iff in Hx as (w & <- & Hw).
  rewrite Forall_forall in Hl. apply in_app_or in K as [K|[<-|[]]]; [|intuition discriminate]. apply (proj2 (Hl w Hw)) in K. intuition congruence.
Qed.

(* ---- hexadecimal ---- *)
Definition dv (c : N) : N := (if c <? 58 then c - 48 else c - 87)%N.
Definition hexval (s : str) : N := fold_left (fun a c => 16 * a + dv c)%N s 0%N.
Lemma dv_hexdig d : (d < 16)%N -> dv (hexdig d) = d.
Proof. intro Hd. unfold dv, hexdig. destruct (N.ltb_spec d 10); destruct (N.ltb_spec (48 + d) 58); destruct (N.ltb_spec (87 + d) 58); lia. Qed.
Lemma size_nat_div16 n : (16 <= n)%N -> (N.size_nat (n / 16) < N.size_nat n)%nat.
Proof.
  intro Hn. assert (0 < n / 16)%N by (apply N.div_str_pos; lia). rewrite !size_nat_log2 by lia.
  assert (N.log2 (n / 16) < N.log2 n)%N; [|lia].
  change 16%N with (2 ^ 4)%N. rewrite <- N.shiftr_div_pow2, N.log2_shiftr. assert (N.log2 16 <= N.log2 n)%N by (apply N.log2_le_mono; lia). change (N.log2 16) with 4%N in *. lia.
Qed.
Lemma hex_f_val : forall f n, (N.size_nat n <= f)%nat -> hexval (hex_f f n) = n.
Proof.
  assert (Q : forall s c, hexval (s ++ [c]) = (16 * hexval s + dv c)%N) by (intros s c; unfold hexval; now rewrite fold_left_app).
  induction f as [|f IH]; intros n Hn; cbn [hex_f].
  - assert (n = 0%N) by (destruct n as [|[p|p|]]; cbn in Hn; lia). subst. reflexivity.
  - destruct (N.ltb_spec n 16).
    + unfold hexval. cbn [fold_left]. rewrite dv_hexdig by assumption. lia.
    + rewrite Q, IH by (pose proof (size_nat_div16 n); lia). rewrite dv_hexdig by (apply N.mod_lt; lia). pose proof (N.div_mod n 16). lia.
Qed.
Lemma hex_inj a b : hex a = hex b -> a = b.
Proof. intro E. rewrite <- (hex_f_val _ a (le_n _)), <- (hex_f_val _ b (le_n _)). unfold hex in E. now rewrite E. Qed.
Lemma hex_chars n c : In c (hex n) -> (48 <= c <= 57 \/ 97 <= c <= 102)%N.
Proof.
  assert (D : forall d, (d < 16)%N -> (48 <= hexdig d <= 57 \/ 97 <= hexdig d <= 102)%N).
  { intros d Hd. unfold hexdig. destruct (N.ltb_spec d 10); lia. }
  assert (G : forall f n, In c (hex_f f n) -> (48 <= c <= 57 \/ 97 <= c <= 102)%N).
  { induction f as [|f IH]; intros m; cbn [hex_f].
    - intros [<-|[]]. apply D, N.mod_lt. lia.
    - destruct (N.ltb_spec m 16); [intros [<-|[]]; now apply D|]. intro K. apply in_app_or in K as [K|[<-|[]]]; [eauto|]. apply D, N.mod_lt. lia. }
  apply G.
Qed.

(* ---- fields ---- *)
Lemma word_last w x : word w -> ~ ends_with (lit "]") (x ++ w).
Proof.
  intros [A B] E. destruct (exists_last A) as (w' & c & ->). apply ends_rev in E as (z & E). rewrite app_assoc, rev_app_distr in E. cbn in E.
  injection E as E _. destruct (B c) as (_ & _ & _ & _ & K); [apply in_or_app; right; now left|]. congruence.
Qed.
Lemma word_no32 w : word w -> ~ In 32%N w.
Proof. intros [_ B] K. now apply B in K. Qed.
Definition tail_text (l : list str) : str := match l with [] => [] | _ => lit " " ++ traits_text l end.
Lemma field_rest_inj ty n l ty' n' l' : word n -> word n' -> Forall word l -> Forall word l' ->
  ty ++ lit " " ++ n ++ tail_text l = ty' ++ lit " " ++ n' ++ tail_text l' -> ty = ty' /\ n = n' /\ l = l'.
Proof.
  intros Wn Wn' Wl Wl' E.
  assert (B : forall ty n ty' n', word n -> word n' -> ty ++ lit " " ++ n = ty' ++ lit " " ++ n' -> ty = ty' /\ n = n').
  { intros. cbn [lit app] in H1. apply split_last in H1; auto using word_no32. }
  assert (X : forall w ty n l, word n -> word w -> ty ++ lit " " ++ n ++ tail_text (w :: l) = ty' ++ lit " " ++ n' -> False).
  { intros w ty0 n0 l0 W1 W2 K. apply (word_last n' (ty' ++ lit " ") Wn'). rewrite <- app_assoc, <- K. unfold tail_text, traits_text.
    eexists. rewrite !app_assoc. reflexivity. }
  assert (X' : forall w ty' n' l, word n' -> word w -> ty ++ lit " " ++ n = ty' ++ lit " " ++ n' ++ tail_text (w :: l) -> False).
  { intros w ty0 n0 l0 W1 W2 K. apply (word_last n (ty ++ lit " ") Wn). rewrite <- app_assoc, K. unfold tail_text, traits_text.
    eexists. rewrite !app_assoc. reflexivity. }
  destruct l as [|w l], l' as [|w' l'].
  - cbn [tail_text] in E. rewrite !app_nil_r in E. destruct (B _ _ _ _ Wn Wn' E). auto.
  - exfalso. assert (Z : n ++ tail_text [] = n) by apply app_nil_r. rewrite Z in E. inversion Wl'; subst. eapply X'; [| |exact E]; auto.
  - exfalso. assert (Z : n' ++ tail_text [] = n') by apply app_nil_r. rewrite Z in E. inversion Wl; subst. eapply X; [| |exact E]; auto.
  - unfold tail_text, traits_text in E.
    assert (K : (ty ++ lit " " ++ n ++ lit " ") ++ 91%N :: (lit " " ++ concat (map (fun t => t ++ lit " ") (w :: l)) ++ lit "]") =
                (ty' ++ lit " " ++ n' ++ lit " ") ++ 91%N :: (lit " " ++ concat (map (fun t => t ++ lit " ") (w' :: l')) ++ lit "]")).
    { rewrite <- !app_assoc. exact E. }
    apply split_last in K. 2,3: intro Q; apply in_app_or in Q as [[Q|[]]|Q]; [discriminate|]; eapply words_no in Q; auto.
    destruct K as [K1 K2]. apply app_inv_head in K2. apply words_inj in K2; auto.
    rewrite !app_assoc in K1. apply app_inv_tail in K1. rewrite <- !app_assoc in K1. destruct (B _ _ _ _ Wn Wn' K1). auto.
Qed.
Definition plain_fs (f : fsum) : Prop := word (fs_name f) /\ Forall word (fs_traits f) /\ ~ In 10%N (fs_type f).
Lemma field_text_inj f g : plain_fs f -> plain_fs g -> field_text f = field_text g -> f = g.
Proof.
  destruct f as [o ty n l], g as [o' ty' n' l']. intros (A & B & _) (A' & B' & _) E. cbn [fs_name fs_traits] in *. unfold field_text in E. cbn [fs_offset fs_type fs_name fs_traits] in E.
  apply app_inv_head in E. change (lit ": ") with [58%N; 32%N] in E. cbn [app] in E.
  apply split_at in E. 2,3: intro K; apply hex_chars in K; lia. destruct E as [E1 E2]. apply hex_inj in E1. injection E2 as E2.
  assert (E3 : ty ++ lit " " ++ n ++ tail_text l = ty' ++ lit " " ++ n' ++ tail_text l') by (destruct l, l'; exact E2).
  apply field_rest_inj in E3 as (-> & -> & ->); auto. now subst.
Qed.

(* ---- signatures ---- *)
Definition as_arg (a : asum) : argument := Arg 0 (as_ref a) (as_const a).
Lemma arg_text_suffix a : arg_text a = as_type a ++ suffix_of (as_arg a).
Proof. reflexivity. Qed.
Definition plain_as (a : asum) : Prop := good_id (as_type a).
Definition plain_gs (g : gsum) : Prop := plain_as (gs_ret g) /\ Forall plain_as (gs_args g).
Lemma arg_text_inj a b : plain_as a -> plain_as b -> arg_text a = arg_text b -> a = b.
Proof.
  intros [A _] [B _] E. rewrite !arg_text_suffix in E. apply (f_equal peel) in E. rewrite !peel_print in E by assumption.
  destruct a, b. cbn in *. congruence.
Qed.
Lemma comma_tail x l : exists y, comma_list (map arg_text (x :: l)) = arg_text x ++ y /\ tailish y /\
  (y = match l with [] => [] | _ => lit ", " ++ comma_list (map arg_text l) end).
Proof. destruct l as [|z l]; eexists; (split; [|split; [|reflexivity]]); cbn [map comma_list]; rewrite ?app_nil_r; auto; [now left|right; eauto]. Qed.
Lemma arg_nonempty a y : plain_as a -> arg_text a ++ y <> [].
Proof. intros [A _] E. rewrite arg_text_suffix in E. apply app_eq_nil in E as [E _]. apply app_eq_nil in E as [E _]. exact (pid_nonempty _ A E). Qed.
Lemma args_text_inj : forall l l', Forall plain_as l -> Forall plain_as l' -> comma_list (map arg_text l) = comma_list (map arg_text l') -> l = l'.
Proof.
  induction l as [|a l IH]; intros [|b l'] Hl Hl' E; [reflexivity| | |].
  - exfalso. inversion Hl'; subst. destruct (comma_tail b l') as (y & K & _). rewrite K in E. symmetry in E. now apply arg_nonempty in E.
  - exfalso. inversion Hl; subst. destruct (comma_tail a l) as (y & K & _). rewrite K in E. now apply arg_nonempty in E.
  - inversion Hl as [|? ? A B]; inversion Hl' as [|? ? A' B']; subst.
    destruct (comma_tail a l) as (y & K & T & Y), (comma_tail b l') as (y' & K' & T' & Y'). rewrite K, K' in E.
    apply unsplit_app in E; auto. 2,3: rewrite arg_text_suffix; apply print_unsplit; first [exact (proj1 A)|exact (proj1 A')].
    destruct E as [E1 E2]. apply arg_text_inj in E1; auto. subst b. f_equal. rewrite Y, Y' in E2. destruct l as [|c l], l' as [|c' l']; try discriminate; auto.
    apply app_inv_head in E2. now apply IH.
Qed.
Lemma arg_no_paren a : plain_as a -> ~ In 40%N (arg_text a).
Proof.
  intros [A _] K. rewrite arg_text_suffix in K. apply in_app_or in K as [K|K]; [exact (pid_paren _ A K)|].
  unfold suffix_of in K. destruct (a_const (as_arg a)), (a_ref (as_arg a)); cbn in K; intuition discriminate.
Qed.
Lemma sig_text_inj g h : plain_gs g -> plain_gs h -> sig_text g = sig_text h -> g = h.
Proof.
  intros [A B] [A' B'] E. unfold sig_text in E. cbn [lit app] in E. change (lit "(") with [40%N] in E. cbn [app] in E.
  apply split_at in E; auto using arg_no_paren. destruct E as [E1 E2]. apply app_inv_tail in E2. apply arg_text_inj in E1; auto. apply args_text_inj in E2; auto.
  destruct g, h. cbn in *. congruence.
Qed.
