(* PropDouble.v - C78: doubles in JSON. *)
From Coq Require String. Import String.StringSyntax.
From Coq Require Import ZArith QArith Qabs Lia Lqa.
From Verif Require Import Base Dec ModelJson ModelJsonW ModelJsonT SpecJson SpecJsonT SpecJsonG SpecDouble ModelDouble ProofJson1 ProofJson9 ProofJsonT1 ProofJsonG ProofDouble1 ProofDouble2 ProofDouble3.
Local Open Scope outcome_scope.
Local Open Scope Z_scope.

Lemma numeral_comp t q q' : (q == q')%Q -> numeral t q -> numeral t q'.
Proof. intros E H. destruct H as [neg ds fr fs ex k q H1 H2 H3 H4 H5 H6]. apply (numeral_ neg ds fr fs ex k); auto. now rewrite <- E. Qed.
Lemma fmt_pos s m e : is_double (Fin s m e) -> 0 < m ->
  exists D k, rnd 10 12 None (scaled 2 m e) = (D, k) /\ 10 ^ 11 <= D < 10 ^ 12 /\ fmt_g (Fin s m e) = (if s then [45%N] else []) ++ layout D (k + 11) /\
    nearest_decimal 12 (value (Fin s m e)) (signed s (scaled 10 D k)) /\ numeral (fmt_g (Fin s m e)) (signed s (scaled 10 D k)) /\
    (whole (signed s (scaled 10 D k)) /\ (exists z, int_text z (fmt_g (Fin s m e))) \/ ~ whole (signed s (scaled 10 D k)) /\ float_text (fmt_g (Fin s m e))).
Proof.
  intros Hd Hm. destruct (rnd 10 12 None (scaled 2 m e)) as [D k] eqn:Er. destruct (rnd_decimal (scaled 2 m e) D k (scaled_pos 2 m e ltac:(lia) Hm) Er) as (HD & ND).
  exists D, k. split; [reflexivity|]. split; [exact HD|].
  assert (E : fmt_g (Fin s m e) = (if s then [45%N] else []) ++ layout D (k + 11)). { unfold fmt_g. destruct (Z.eqb_spec m 0); [lia|]. now rewrite Er. }
  split; [exact E|]. split; [apply ND|]. rewrite E. pose proof (layout_form s D (k + 11) HD) as F. replace (k + 11 - 11) with k in F by lia. exact F.
Qed.

(* formatFloat writes the decimal number with at most twelve significant digits that is
   nearest to the double, as a JSON number: one that looks like an integer if it is one
   below 10^12, one with a point or an exponent otherwise. *)
Theorem c78_text : forall d : double, is_double d -> finite d ->
  exists (t : str) (q : Q), (forall w, format_float d w = mkW (wout w ++ t) (werr w) (windent w) (wopt w)) /\
    nearest_decimal 12 (value d) q /\ numeral t q /\
    (whole q /\ (exists z, int_text z t) \/ ~ whole q /\ float_text t).
Proof.
  intros d Hd Hf. destruct d as [s m e| |]; try contradiction.
  destruct (Z.eq_dec m 0) as [->|Nz].
  - exists (fmt_g (Fin s 0 e)), 0%Q. assert (V : (value (Fin s 0 e) == 0)%Q). { cbn [value]. unfold scaled. change (inject_Z 0) with 0%Q. destruct s; cbn [signed]; ring. }
    split; [reflexivity|]. split; [|split].
    + assert (A : (Qabs (value (Fin s 0 e) - 0) == 0)%Q) by (rewrite V; reflexivity).
      split; [exists 0, 0; split; [lia|unfold scaled; change (inject_Z 0) with 0%Q; ring]|]. split; intros q' Hq'; rewrite A.
      * apply Qabs_nonneg.
      * intro E. left. rewrite V in E. revert E. apply Qabs_case; intros; lra.
    + apply (numeral_ s [48%N] [] [] [] 0); [discriminate|constructor; [unfold digit_char; lia|constructor]|constructor|left; auto|constructor|].
      unfold scaled. change (inject_Z (Z.of_N (dec_val ([48%N] ++ []) 0))) with 0%Q. destruct s; cbn [signed]; ring.
    + left. split; [exists 0; split; [reflexivity|lia]|]. exists 0. destruct s; cbn [fmt_g app].
      * exact (it_neg [48%N] ltac:(discriminate) ltac:(constructor; [unfold digit_char; lia|constructor])).
      * exact (it_pos [48%N] ltac:(discriminate) ltac:(constructor; [unfold digit_char; lia|constructor])).
  - destruct (fmt_pos s m e Hd) as (D & k & _ & _ & _ & N & T & F); [destruct Hd; lia|].
    exists (fmt_g (Fin s m e)), (signed s (scaled 10 D k)). split; [reflexivity|]. auto.
Qed.
Print Assumptions c78_text.

Lemma takes_float {S : Type} o (f : double -> S) t d : float_text t -> strtod t = Ok d ->
  takes o (dia o) (fun r => do (x, r') <- parse_double r; Ok (f x, r')) (JFloat t) (f d).
Proof.
  intros Ht Hs rest r Hv. apply value_view in Hv. cbn [toks app] in Hv.
  destruct (float_view o t [] rest r (float_text_read t Ht) Hv) as (r' & E & K). unfold parse_double. rewrite E. cbn [bind]. rewrite Hs. cbn [bind].
  exists r'. split; [reflexivity|now apply V_reads].
Qed.

(* parseFloat takes exactly a number with a point or an exponent and gives the double
   nearest to it: always, when it is neither too large nor too near to zero; when it is too
   large std::out_of_range is thrown; and whenever a double is given it is the nearest. *)
Theorem c78_read : forall (S : Type) (o : ropts) (f : double -> S) (t : str) (q : Q),
  float_text t -> numeral t q -> (least_q <= Qabs q)%Q -> small q ->
  exists d, nearest_double q d /\ normal d /\ takes o (dia o) (fun r => do (x, r') <- parse_double r; Ok (f x, r')) (JFloat t) (f d).
Proof.
  intros S o f t q Ht Hn Hl Hs. assert (Hz : ~ (q == 0)%Q).
  { intro E. rewrite E in Hl. change (Qabs 0) with 0%Q in Hl. assert (0 < least_q)%Q by (apply scaled_pos; lia). lra. }
  destruct (strtod_ok t q Hn Hz Hl Hs) as (d & E & N & Nd). exists d. split; [exact N|]. split; [exact Nd|]. now apply takes_float.
Qed.
Print Assumptions c78_read.
Theorem c78_read_zero : forall (S : Type) (o : ropts) (f : double -> S) (t : str), float_text t -> numeral t 0 ->
  exists s, takes o (dia o) (fun r => do (x, r') <- parse_double r; Ok (f x, r')) (JFloat t) (f (Fin s 0 (-1074))).
Proof. intros S o f t Ht Hn. destruct (strtod_zero t Hn) as [s E]. exists s. now apply takes_float. Qed.
Print Assumptions c78_read_zero.
Theorem c78_read_large : forall (o : ropts) (t : str) (q : Q) (rest : str) (r : reader),
  float_text t -> numeral t q -> ~ small q -> at_value o (dia o) (JFloat t) rest r -> parse_double r = Throw.
Proof.
  intros o t q rest r Ht Hn Hs Hv. apply value_view in Hv. cbn [toks app] in Hv.
  destruct (float_view o t [] rest r (float_text_read t Ht) Hv) as (r' & E & K). unfold parse_double. rewrite E. cbn [bind]. now rewrite (strtod_large t q Hn Hs).
Qed.
Print Assumptions c78_read_large.
Theorem c78_read_nearest : forall (o : ropts) (t : str) (q : Q) (rest : str) (r r' : reader) (d : double),
  float_text t -> numeral t q -> ~ (q == 0)%Q -> at_value o (dia o) (JFloat t) rest r -> parse_double r = Ok (d, r') ->
  nearest_double q d /\ reads_at o rest TNone r'.
Proof.
  intros o t q rest r r' d Ht Hn Hz Hv Hp. apply value_view in Hv. cbn [toks app] in Hv.
  destruct (float_view o t [] rest r (float_text_read t Ht) Hv) as (r1 & E & K). unfold parse_double in Hp. rewrite E in Hp. cbn [bind] in Hp.
  destruct (strtod t) as [x| | | |] eqn:Es; try discriminate. cbn [bind] in Hp. injection Hp as -> ->. split; [eapply strtod_nearest; eauto|now apply V_reads].
Qed.
Print Assumptions c78_read_nearest.
(* There is only one nearest double. *)
Theorem c78_one_nearest : forall (q : Q) (d d' : double), nearest_double q d -> nearest_double q d' -> ~ (value d == 0)%Q -> d = d'.
Proof. exact nearest_unique. Qed.
Print Assumptions c78_one_nearest.

(* Together: the double nearest to a number with at most twelve digits is written as this
   number and, unless it is an integer below 10^12, read back as the same double. *)
Theorem c78_survives : forall (S : Type) (o : ropts) (f : double -> S) (d : double) (q : Q),
  normal d -> decimal 12 q -> small q -> nearest_double q d ->
  exists t, (forall w, format_float d w = mkW (wout w ++ t) (werr w) (windent w) (wopt w)) /\ numeral t q /\
    (~ whole q -> float_text t /\ takes o (dia o) (fun r => do (x, r') <- parse_double r; Ok (f x, r')) (JFloat t) (f d)).
Proof.
  intros S o f d q Hn Hq Hs Nd. exists (fmt_g d). split; [reflexivity|]. destruct d as [s m e| |]; try contradiction. cbn [normal] in Hn.
  pose proof Nd as (Hd & _ & N & _). destruct (fmt_pos s m e Hd) as (D & k & Er & HD & E & _ & T & F); [lia|].
  pose proof (twelve_digits s m e q D k Hd Hn Hq Hs N Er) as Eq.
  assert (T' : numeral (fmt_g (Fin s m e)) q). { eapply numeral_comp; [symmetry; exact Eq|exact T]. }
  split; [exact T'|]. intro Nw. destruct F as [(W & _)|(_ & Ft)].
  { exfalso. apply Nw. destruct W as (z & Ez & Hz). exists z. split; [rewrite Eq; exact Ez|exact Hz]. }
  split; [exact Ft|]. apply takes_float; [exact Ft|].
  destruct (printed_range m e D k Hd Hn Er) as (R1 & R2).
  assert (Aq : (Qabs q == scaled 10 D k)%Q). { rewrite Eq, abs_signed. apply Qabs_pos. apply scaled_nonneg; lia. }
  assert (Hz : ~ (q == 0)%Q). { intro K. rewrite K in Aq. change (Qabs 0) with 0%Q in Aq. assert (0 < scaled 10 D k)%Q by (apply scaled_pos; lia). lra. }
  destruct (strtod_ok _ q T' Hz ltac:(rewrite Aq; exact R1) Hs) as (d1 & E1 & N1 & Nn). rewrite E1. f_equal.
  apply (nearest_unique q); auto. intro K. destruct d1 as [s1 m1 e1| |]; try contradiction. cbn [normal] in Nn. assert (0 < scaled 2 m1 e1)%Q by (apply scaled_pos; lia).
  cbn [value] in K. destruct s1; cbn [signed] in K; lra.
Qed.
Print Assumptions c78_survives.

(* Any normal double whose text has a point or an exponent can be read back, and what is
   read back is written as the same text: nothing is lost but in the first writing. *)
Theorem c78_stable : forall (S : Type) (o : ropts) (f : double -> S) (d : double), is_double d -> normal d ->
  exists t, (forall w, format_float d w = mkW (wout w ++ t) (werr w) (windent w) (wopt w)) /\
  (float_text t -> exists d1, takes o (dia o) (fun r => do (x, r') <- parse_double r; Ok (f x, r')) (JFloat t) (f d1) /\ normal d1 /\
     (forall w, format_float d1 w = mkW (wout w ++ t) (werr w) (windent w) (wopt w))).
Proof.
  intros S o f d Hd Hn. exists (fmt_g d). split; [reflexivity|]. intro Ft. destruct d as [s m e| |]; try contradiction. cbn [normal] in Hn.
  destruct (fmt_pos s m e Hd) as (D & k & Er & HD & E & _ & T & _); [lia|]. set (q := signed s (scaled 10 D k)) in *.
  destruct (printed_range m e D k Hd Hn Er) as (R1 & R2). assert (P0 : (0 < scaled 10 D k)%Q) by (apply scaled_pos; lia).
  assert (Aq : (Qabs q == scaled 10 D k)%Q). { unfold q. rewrite abs_signed. apply Qabs_pos. lra. }
  assert (Hz : ~ (q == 0)%Q). { intro K. rewrite K in Aq. change (Qabs 0) with 0%Q in Aq. lra. }
  assert (Hs : small q) by (unfold small; rewrite Aq; exact R2).
  destruct (strtod_ok _ q T Hz ltac:(rewrite Aq; exact R1) Hs) as (d1 & E1 & N1 & Nn). exists d1. split; [now apply takes_float|]. split; [exact Nn|].
  intro w. unfold format_float, push. do 2 f_equal. destruct d1 as [s1 m1 e1| |]; try contradiction. cbn [normal] in Nn. pose proof N1 as (Hd1 & _ & Nr & _).
  destruct (fmt_pos s1 m1 e1 Hd1) as (D1 & k1 & Er1 & HD1 & E1' & _ & _ & _); [lia|].
  assert (Hq : decimal 12 q) by (apply decimal_signed; exists D, k; split; [lia|reflexivity]).
  pose proof (twelve_digits s1 m1 e1 q D1 k1 Hd1 Nn Hq Hs Nr Er1) as Eq1. assert (P1 : (0 < scaled 10 D1 k1)%Q) by (apply scaled_pos; lia).
  unfold q in Eq1. rewrite E, E1'.
  assert (s = s1 /\ (scaled 10 D k == scaled 10 D1 k1)%Q) as [<- Es] by (destruct s, s1; cbn [signed] in Eq1; split; try reflexivity; lra).
  destruct (decimal_canonical D k D1 k1 HD HD1 Es) as [-> ->]. reflexivity.
Qed.
Print Assumptions c78_stable.

(* 0.1 is such a double; it is written as it should and comes back. *)
Definition tenth : double := Fin false 7205759403792794 (-56).
Lemma numeral_tenth : numeral (lit "0.1") (1 # 10).
Proof. apply (numeral_ false [48%N] [46%N; 49%N] [49%N] [] 0); [discriminate| | |right; split; [reflexivity|discriminate]|constructor|vm_compute; reflexivity]; repeat constructor; vm_compute; discriminate. Qed.
Example c78_example : is_double tenth /\ normal tenth /\ decimal 12 (1 # 10) /\ small (1 # 10) /\ ~ whole (1 # 10) /\ nearest_double (1 # 10) tenth /\ fmt_g tenth = lit "0.1".
Proof.
  split; [cbn; lia|]. split; [cbn; lia|]. split; [exists 1, (-1); split; [lia|vm_compute; reflexivity]|]. split; [vm_compute; reflexivity|].
  split; [intros (z & E & _); unfold Qeq in E; cbn in E; lia|]. split; [|vm_compute; reflexivity].
  apply (strtod_nearest (lit "0.1")); [apply numeral_tenth|vm_compute; reflexivity|intro E; discriminate E].
Qed.

(* False of the code: a double with more digits does not come back, *)
Theorem c78_more_digits_refuted :
  let d := Fin false 5404319552844596 (-54) in
  is_double d /\ fmt_g d = lit "0.3" /\ exists r, parse_double (reader_init ropts_default (fmt_g d ++ lit " ")) = Ok (Fin false 5404319552844595 (-54), r).
Proof. cbv zeta. split; [cbn; lia|]. split; [vm_compute; reflexivity|]. eexists. vm_compute. reflexivity. Qed.
Print Assumptions c78_more_digits_refuted.
(* a whole number stops the program when read, *)
Theorem c78_whole_refuted : let d := Fin false (2 ^ 52) (-51) in
  is_double d /\ fmt_g d = lit "2" /\ parse_double (reader_init ropts_default (fmt_g d ++ lit " ")) = Abort.
Proof. cbv zeta. split; [cbn; lia|]. split; vm_compute; reflexivity. Qed.
Print Assumptions c78_whole_refuted.
(* a number too near to zero makes the reader throw, *)
Theorem c78_tiny_refuted : let d := Fin false 1 (-1074) in
  is_double d /\ fmt_g d = lit "4.94065645841e-324" /\ parse_double (reader_init ropts_default (fmt_g d ++ lit " ")) = Throw.
Proof. cbv zeta. split; [cbn; lia|]. split; vm_compute; reflexivity. Qed.
Print Assumptions c78_tiny_refuted.
(* and infinities and NaN are written as texts that stop the program when read. *)
Theorem c78_special_refuted :
  fmt_g (Inf false) = lit "inf" /\ parse_double (reader_init ropts_default (lit "inf ")) = Abort /\
  fmt_g Nan = lit "nan" /\ parse_double (reader_init ropts_default (lit "nan ")) = Abort.
Proof. repeat split; vm_compute; reflexivity. Qed.
Print Assumptions c78_special_refuted.
