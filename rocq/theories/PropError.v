(* PropError.v - C43 *)
From Coq Require String. Import String.StringSyntax.
From Verif Require Import Base Dec ModelError.

Lemma firstn_out : forall (msg : str) k, length msg <= k ->
  vsnprintf (repeat None (k + 2)) (k + 1) msg = ((map Some msg ++ [Some 0%N]) ++ repeat None (k + 1 - length msg), length msg).
Proof.
  intros msg k L. unfold vsnprintf. replace (k + 1 - 1) with k by lia. rewrite firstn_all2 by lia. f_equal. f_equal.
  rewrite app_length, map_length. cbn [length].
  replace (k + 2) with ((length msg + 1) + (k + 1 - length msg)) by lia. rewrite repeat_app, skipn_app, repeat_length, skipn_all2.
  - now replace (length msg + 1 - (length msg + 1)) with 0 by lia.
  - rewrite repeat_length. lia.
Qed.

(* Messages of at most 1022 bytes are reproduced exactly. *)
Theorem c43_short_messages_exact : forall msg : str, length msg <= 1022 -> verrorFormat msg = Ok (map Some msg).
Proof.
  intros msg L. unfold verrorFormat. rewrite repeat_length.
  change 1024 with (1022 + 2) at 1. change (1024 - 1) with (1022 + 1). rewrite firstn_out by exact L.
  unfold string_from. rewrite !app_length, map_length, repeat_length. cbn [length].
  destruct (Nat.leb_spec (length msg) (length msg + 1 + (1022 + 1 - length msg))); [|lia].
  f_equal. rewrite <- app_assoc, firstn_app, map_length, Nat.sub_diag. cbn [firstn]. rewrite app_nil_r.
  apply firstn_all2. rewrite map_length. lia.
Qed.
Print Assumptions c43_short_messages_exact.

(* Longer messages: never what the property asks for.  With 1023 bytes the last
   byte is a NUL instead of the message's; with 1024 the last byte is moreover
   uninitialised; beyond that the buffer is overrun. *)
Theorem c43_long_messages_refuted : forall msg : str, 1023 <= length msg ->
  (length msg <= 1024 /\ exists tail, verrorFormat msg = Ok (map Some (firstn 1022 msg) ++ Some 0%N :: tail) /\
     length tail = length msg - 1023 /\ Forall (fun c => c = None) tail) \/
  (1025 <= length msg /\ verrorFormat msg = UB).
Proof.
  intros msg L. unfold verrorFormat. rewrite repeat_length. unfold vsnprintf. change (1024 - 1 - 1) with 1022.
  set (out := map Some (firstn 1022 msg) ++ [Some 0%N]).
  assert (Lo : length out = 1023) by (unfold out; rewrite app_length, map_length, firstn_length; cbn [length]; lia).
  rewrite Lo. change (skipn 1023 (repeat (@None byte) 1024)) with [@None byte].
  unfold string_from. rewrite app_length, Lo. cbn [length].
  destruct (Nat.leb_spec (length msg) (1023 + 1)).
  - left. split; [lia|]. exists (firstn (length msg - 1023) [None]). split; [|split].
    + f_equal. rewrite firstn_app, Lo, firstn_all2 by lia. unfold out. now rewrite <- app_assoc.
    + rewrite firstn_length. cbn [length]. lia.
    + apply Forall_forall. intros c Hc.
      assert (Hi : In c [@None byte]) by (rewrite <- (firstn_skipn (length msg - 1023) [None]); apply in_or_app; auto).
      destruct Hi as [<-|[]]; auto.
  - right. split; [lia|reflexivity].
Qed.
Print Assumptions c43_long_messages_refuted.

(* So, for messages without NUL bytes, the text is the message exactly when it has
   at most 1022 bytes. *)
Theorem c43_exact_iff : forall msg : str, Forall (fun c => c <> 0%N) msg ->
  (verrorFormat msg = Ok (map Some msg) <-> length msg <= 1022).
Proof.
  intros msg NZ. split; [|apply c43_short_messages_exact]. intro E.
  destruct (Nat.le_gt_cases (length msg) 1022); auto. exfalso.
  destruct (c43_long_messages_refuted msg ltac:(lia)) as [(L & tail & E2 & Lt & F)|(_ & E2)]; [|congruence].
  rewrite E2 in E. injection E as E. assert (Hin : In (Some 0%N) (map Some msg)).
  { rewrite <- E. apply in_or_app. right. now left. }
  apply in_map_iff in Hin as (z & Ez & Hin). injection Ez as ->. rewrite Forall_forall in NZ. now apply (NZ _ Hin).
Qed.
Print Assumptions c43_exact_iff.

Example c43_ex : verrorFormat (lit "hello") = Ok (map Some (lit "hello")) /\ verrorFormat (repeat 65%N 2000) = UB.
Proof. split; reflexivity. Qed.

(* The raised error is the location, then the message: file, line and message can
   be read back from it. *)
Theorem c43_raised_text : forall file line msg, verror true file line msg = Threw (file ++ lit ":" ++ dec line ++ lit ": " ++ msg).
Proof. reflexivity. Qed.
Print Assumptions c43_raised_text.
Theorem c43_location_recoverable : forall file line msg file' line' msg',
  Forall (fun c => c <> 58%N) file -> Forall (fun c => c <> 58%N) file' ->
  verror true file line msg = verror true file' line' msg' -> file = file' /\ line = line' /\ msg = msg'.
Proof.
  assert (A : forall a b x y, Forall (fun c : byte => c <> 58%N) a -> Forall (fun c => c <> 58%N) b ->
     a ++ 58%N :: x = b ++ 58%N :: y -> a = b /\ x = y).
  { induction a as [|c a IH]; intros [|d b] x y Fa Fb E; cbn in E; injection E; intros; subst; auto.
    - inversion Fb; congruence.
    - inversion Fa; congruence.
    - inversion Fa; inversion Fb; subst. destruct (IH b x y) as (-> & ->); auto. }
  assert (D : forall n, Forall (fun c : byte => c <> 58%N) (dec n)).
  { intro n. eapply Forall_impl; [|apply dec_digits]. cbn. intros c Hc ->. discriminate. }
  intros f l m f' l' m' Ff Ff' E. unfold verror in E. injection E as E.
  apply A in E as (-> & E); auto. apply A in E as (E1 & E); auto. apply dec_inj in E1. injection E as ->. auto.
Qed.
Print Assumptions c43_location_recoverable.
