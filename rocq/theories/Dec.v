(* Dec.v - decimal numerals as byte strings.  Stands for std::to_string /
   operator<< (printing) and std::stol / std::stoull (reading) restricted to runs
   of decimal digits; used by the config path and the JSON models. *)
From Verif Require Import Base.

(* '0'..'9' *)
Definition is_digit (c : byte) : bool := (N.leb 48 c && N.leb c 57)%bool.
Definition digit (d : N) : byte := N.add 48 d.

(* most significant digit first; fuel = number of bits + 1 suffices *)
Fixpoint digits_f (fuel : nat) (n : N) : str :=
  match fuel with
  | O => []
  | Datatypes.S fuel' =>
    if N.ltb n 10 then [digit n]
    else digits_f fuel' (N.div n 10) ++ [digit (N.modulo n 10)]
  end.
Definition dec (n : N) : str := digits_f (Datatypes.S (N.size_nat n)) n.

(* value of a digit run *)
Definition undec_from (acc : N) (s : str) : N := fold_left (fun a c => N.add (N.mul 10 a) (N.sub c 48)) s acc.
Definition undec (s : str) : N := undec_from 0 s.

Lemma undec_from_app a s t : undec_from a (s ++ t) = undec_from (undec_from a s) t.
Proof. unfold undec_from. apply fold_left_app. Qed.

Lemma is_digit_iff c : is_digit c = true <-> (48 <= c <= 57)%N.
Proof. unfold is_digit. rewrite andb_true_iff, !N.leb_le. tauto. Qed.

Lemma digit_is_digit d : (d < 10)%N -> is_digit (digit d) = true.
Proof. intro H. apply is_digit_iff. unfold digit. lia. Qed.

Lemma size_nat_log2 m : (0 < m)%N -> N.size_nat m = Datatypes.S (N.to_nat (N.log2 m)).
Proof.
  intro H. assert (L : N.to_nat (N.size m) = N.size_nat m).
  { destruct m as [|p]; cbn; auto. induction p; cbn; try lia. }
  rewrite <- L, N.size_log2 by lia. lia.
Qed.
Lemma size_nat_div10 n : (10 <= n)%N -> (N.size_nat (N.div n 10) < N.size_nat n)%nat.
Proof.
  intro H. assert (D : (0 < N.div n 10)%N) by (apply N.div_str_pos; lia).
  rewrite !size_nat_log2 by lia.
  assert (M : (N.log2 (N.div n 10) <= N.log2 (N.div n 2))%N) by (apply N.log2_le_mono, N.div_le_compat_l; lia).
  assert (E : N.log2 (N.div n 2) = N.sub (N.log2 n) 1) by (rewrite <- N.div2_div, N.div2_spec, N.log2_shiftr; reflexivity).
  assert (0 < N.log2 n)%N by (apply N.log2_pos; lia). lia.
Qed.

Lemma digits_f_spec n : forall fuel, (N.size_nat n < fuel)%nat -> undec (digits_f fuel n) = n /\ Forall (fun c => is_digit c = true) (digits_f fuel n) /\ digits_f fuel n <> [].
Proof.
  intro fuel. revert n. induction fuel as [|fuel IH]; intros n L; [lia|]. cbn [digits_f].
  destruct (N.ltb_spec n 10).
  - split; [unfold undec, undec_from, digit; cbn [fold_left]; lia|]. split; [|discriminate].
    constructor; [now apply digit_is_digit|constructor].
  - pose proof (size_nat_div10 n H). destruct (IH (N.div n 10)) as (E1 & E2 & E3); [lia|]. split; [|split].
    + unfold undec in *. rewrite undec_from_app, E1. unfold undec_from, digit. cbn [fold_left].
      pose proof (N.div_mod n 10 ltac:(lia)) as DM. revert DM. generalize (N.div n 10), (N.modulo n 10). intros; lia.
    + apply Forall_app. split; auto. constructor; [|constructor]. apply digit_is_digit. apply N.mod_lt. lia.
    + now destruct (digits_f fuel (n / 10)).
Qed.
Lemma undec_dec n : undec (dec n) = n.
Proof. apply digits_f_spec. lia. Qed.
Lemma dec_digits n : Forall (fun c => is_digit c = true) (dec n).
Proof. apply digits_f_spec. lia. Qed.
Lemma dec_nonempty n : dec n <> [].
Proof. apply (digits_f_spec n). lia. Qed.

(* no leading zero, except "0" itself *)
Lemma dec_leading n : (0 < n)%N -> exists c s, dec n = c :: s /\ c <> 48%N.
Proof.
  unfold dec. generalize (Nat.lt_succ_diag_r (N.size_nat n)). generalize (Datatypes.S (N.size_nat n)). intros fuel. revert n.
  induction fuel as [|fuel IH]; intros n L P; [lia|]. cbn [digits_f].
  destruct (N.ltb_spec n 10).
  - exists (digit n), []. split; auto. unfold digit. lia.
  - pose proof (size_nat_div10 n H). destruct (IH (N.div n 10)) as (c & s & E & Nc); [lia| |].
    + apply N.div_str_pos. lia.
    + rewrite E. exists c, (s ++ [digit (n mod 10)]). auto.
Qed.
Lemma dec_inj a b : dec a = dec b -> a = b.
Proof. intro E. rewrite <- (undec_dec a), <- (undec_dec b). now rewrite E. Qed.
