(* ProofDouble3.v - the texts of doubles (for C78). *)
From Coq Require String. Import String.StringSyntax.
From Coq Require Import ZArith QArith Qabs Qround Qpower Lia Lqa Setoid.
From Verif Require Import Base Dec ModelJson ModelJsonW SpecJson SpecDouble ModelDouble ProofJson1 ProofJson9 ProofDouble1 ProofDouble2.
Local Open Scope Z_scope.

(* ---- runs of digits ---- *)
Definition num (s : str) : Z := Z.of_N (dec_val s 0).
Lemma dec_val_acc s : forall a, Z.of_N (dec_val s a) = Z.of_N a * 10 ^ Z.of_nat (length s) + num s.
Proof.
  unfold num. induction s as [|c s IH]; intro a; cbn [dec_val length]; [cbn; lia|]. rewrite IH. rewrite (IH (0 * 10 + (c - 48))%N).
  rewrite Nat2Z.inj_succ, Z.pow_succ_r by lia. nia.
Qed.
Lemma dec_val_app s t a : dec_val (s ++ t) a = dec_val t (dec_val s a).
Proof. revert a. induction s as [|c s IH]; intro a; cbn; auto. Qed.
Lemma num_app s t : num (s ++ t) = num s * 10 ^ Z.of_nat (length t) + num t.
Proof. unfold num at 1. rewrite dec_val_app, dec_val_acc. reflexivity. Qed.
Lemma num_nonneg s : 0 <= num s.
Proof. unfold num. lia. Qed.
Lemma num_zeros n : num (repeat 48%N n) = 0.
Proof. unfold num. induction n as [|n IH]; cbn [repeat dec_val]; auto. Qed.
Lemma num_one c : digit_char c -> 0 <= num [c] < 10 /\ num [c] = Z.of_N c - 48.
Proof. unfold num, digit_char. cbn [dec_val]. intro H. lia. Qed.
Lemma num_bound s : digits s -> num s < 10 ^ Z.of_nat (length s).
Proof.
  induction s as [|c s IH]; intro H; [unfold num; cbn; lia|]. inversion H as [|? ? Hc Hs]; subst. specialize (IH Hs).
  change (c :: s) with ([c] ++ s). rewrite num_app. destruct (num_one c Hc) as [Hn _]. cbn [app length]. rewrite Nat2Z.inj_succ, Z.pow_succ_r by lia. nia.
Qed.
Lemma num_dec n : num (dec n) = Z.of_N n.
Proof. unfold num. rewrite dec_val_undec. change (undec_from 0 (dec n)) with (undec (dec n)). now rewrite undec_dec. Qed.
Lemma dec_len n k : 0 <= k -> 10 ^ k <= Z.of_N n < 10 ^ (k + 1) -> Z.of_nat (length (dec n)) = k + 1.
Proof.
  intros Hk H. pose proof (num_bound (dec n) (dec_digits' n)) as U. rewrite num_dec in U.
  assert (Hp : 0 < 10 ^ k) by (apply Z.pow_pos_nonneg; lia).
  destruct (dec_leading n) as (c & s & E & Hc); [lia|].
  assert (L : 10 ^ (Z.of_nat (length (dec n)) - 1) <= Z.of_N n).
  { rewrite <- (num_dec n). pose proof (dec_digits' n) as D. rewrite E in *. inversion D as [|? ? Dc _]; subst. change (c :: s) with ([c] ++ s).
    rewrite num_app. destruct (num_one c Dc) as [_ Nc]. unfold digit_char in Dc. cbn [app length]. rewrite Nat2Z.inj_succ.
    replace (Z.succ (Z.of_nat (length s)) - 1) with (Z.of_nat (length s)) by lia. pose proof (num_nonneg s). assert (0 < 10 ^ Z.of_nat (length s)) by (apply Z.pow_pos_nonneg; lia). nia. }
  assert (10 ^ k < 10 ^ Z.of_nat (length (dec n))) as K1 by lia. apply Z.pow_lt_mono_r_iff in K1; [|lia|lia].
  assert (10 ^ (Z.of_nat (length (dec n)) - 1) < 10 ^ (k + 1)) as K2 by lia. apply Z.pow_lt_mono_r_iff in K2; lia.
Qed.

(* ---- trailing zeros ---- *)
Lemma drop0_split s : exists j, s = repeat 48%N j ++ drop0 s.
Proof.
  induction s as [|c s [j IH]]; [now exists 0%nat|]. cbn [drop0]. destruct (N.eqb_spec c 48) as [->|_]; [|now exists 0%nat].
  exists (Datatypes.S j). cbn. now rewrite IH at 1.
Qed.
Lemma rev_repeat {A} (x : A) n : rev (repeat x n) = repeat x n.
Proof. induction n as [|n IH]; [reflexivity|]. cbn. rewrite IH. clear. induction n; cbn; [reflexivity|]. now rewrite IHn. Qed.
Lemma strip0_split s : exists j, s = strip0 s ++ repeat 48%N j.
Proof.
  destruct (drop0_split (rev s)) as [j E]. exists j. unfold strip0. rewrite <- (rev_involutive s) at 1. rewrite E at 1. now rewrite rev_app_distr, rev_repeat.
Qed.
Lemma drop0_head s c t : drop0 s = c :: t -> c <> 48%N.
Proof. induction s as [|a s IH]; [discriminate|]. cbn. destruct (N.eqb_spec a 48) as [->|N]; [exact IH|]. intros [= -> _]. exact N. Qed.
Lemma strip0_last s : strip0 s = [] \/ exists t c, strip0 s = t ++ [c] /\ c <> 48%N.
Proof.
  unfold strip0. destruct (drop0 (rev s)) as [|c t] eqn:E; [now left|right]. exists (rev t), c. split; [reflexivity|]. now apply drop0_head in E.
Qed.
Lemma digits_app s t : digits (s ++ t) <-> digits s /\ digits t.
Proof. unfold digits. apply Forall_app. Qed.
Lemma digits_zeros n : digits (repeat 48%N n).
Proof. unfold digits. apply Forall_forall. intros x H. apply repeat_spec in H as ->. unfold digit_char. lia. Qed.
Lemma strip0_digits s : digits s -> digits (strip0 s).
Proof. intro H. destruct (strip0_split s) as [j E]. rewrite E in H. now apply digits_app in H as [H _]. Qed.

(* ---- the layout of a number ---- *)
Lemma point_frac fs : point fs = [] /\ fs = [] \/ point fs = 46%N :: fs /\ fs <> [].
Proof. destruct fs; [left|right]; split; auto; discriminate. Qed.
Lemma num_pad2 s : num (pad2 s) = num s.
Proof. destruct s as [|a [|b s]]; reflexivity. Qed.
Lemma pad2_digits s : digits s -> digits (pad2 s).
Proof. intro H. destruct s as [|a [|b s]]; cbn [pad2]; auto. constructor; [unfold digit_char; lia|exact H]. Qed.
Lemma pad2_nil s : s <> [] -> pad2 s <> [].
Proof. destruct s as [|a [|b s]]; cbn; congruence. Qed.

(* digits before and after the point, and the exponent *)
Lemma layout_parts D X : 10 ^ 11 <= D < 10 ^ 12 ->
  exists ds fs ex k j, layout D X = ds ++ point fs ++ ex /\ ds <> [] /\ digits ds /\ digits fs /\ exponent ex k /\
    0 <= j /\ D = num (ds ++ fs) * 10 ^ j /\ k - Z.of_nat (length fs) = j + (X - 11) /\
    (fs = [] \/ exists t c, fs = t ++ [c] /\ digit_char c /\ c <> 48%N) /\
    ((-4 <= X < 12 /\ ex = [] /\ k = 0) \/ (~ (-4 <= X < 12) /\ ex <> [])).
Proof.
  intro HD. set (s := dec (Z.to_N D)).
  assert (Hl : Z.of_nat (length s) = 12). { apply (dec_len (Z.to_N D) 11); [lia|]. rewrite Z2N.id; lia. }
  assert (Hs : digits s) by apply dec_digits'. assert (Hn : num s = D) by (unfold s; rewrite num_dec, Z2N.id; lia).
  (* a split of the digits, with stripped tail *)
  assert (Sp : forall n, exists j, digits (firstn n s) /\ digits (strip0 (skipn n s)) /\ D = num (firstn n s ++ strip0 (skipn n s)) * 10 ^ Z.of_nat j /\
     (length (strip0 (skipn n s)) + j = length s - n)%nat).
  { intro n. destruct (strip0_split (skipn n s)) as [j E]. exists j. rewrite <- (firstn_skipn n s) in Hs. apply digits_app in Hs as [H1 H2].
    split; [exact H1|]. split; [now apply strip0_digits|]. split.
    - rewrite <- Hn. rewrite <- (firstn_skipn n s) at 1. rewrite E at 1. rewrite app_assoc, num_app, num_zeros, repeat_length. lia.
    - rewrite <- skipn_length. rewrite E at 2. rewrite app_length, repeat_length. reflexivity. }
  assert (Lst : forall u, digits u -> strip0 u = [] \/ exists t c, strip0 u = t ++ [c] /\ digit_char c /\ c <> 48%N).
  { intros u Hu. destruct (strip0_last u) as [E|(t & c & E & Hc)]; [now left|right]. exists t, c. split; [exact E|]. split; [|exact Hc].
    apply strip0_digits in Hu. rewrite E in Hu. apply digits_app in Hu as [_ Hu]. now inversion Hu. }
  assert (Hsk : forall n, digits (skipn n s)) by (intro n; rewrite <- (firstn_skipn n s) in Hs; now apply digits_app in Hs as [_ Hs]).
  assert (Hne : forall n, firstn (Datatypes.S n) s <> []). { intros n E. apply (f_equal (@length _)) in E. rewrite firstn_length in E. cbn [length] in E. lia. }
  unfold layout. fold s. destruct (Z.leb_spec (-4) X) as [La|La]; destruct (Z.ltb_spec X 12) as [Lb|Lb]; cbn [andb].
  2,3,4: destruct (Sp 1%nat) as (j & F1 & F2 & F3 & F4); exists (firstn 1 s), (strip0 (skipn 1 s)), (101%N :: (if X <? 0 then 45%N else 43%N) :: pad2 (dec (Z.to_N (Z.abs X)))), X, (Z.of_nat j);
    (split; [reflexivity|]); (split; [apply Hne|]); (split; [exact F1|]); (split; [exact F2|]);
    (split; [|split; [lia|]; split; [exact F3|]; split; [lia|]; split; [apply Lst, Hsk|]; right; split; [lia|discriminate]]).
  2,3,4: assert (E : X = (if match [if X <? 0 then 45%N else 43%N] with [45%N] => true | _ => false end then - num (pad2 (dec (Z.to_N (Z.abs X)))) else num (pad2 (dec (Z.to_N (Z.abs X))))))
      by (rewrite num_pad2, num_dec, Z2N.id by lia; destruct (Z.ltb_spec X 0); cbv iota; lia);
    rewrite E at 3; apply (ex_some 101%N [if X <? 0 then 45%N else 43%N] (pad2 (dec (Z.to_N (Z.abs X)))));
    [now left|destruct (X <? 0); tauto|apply pad2_nil, dec_nonempty|apply pad2_digits, dec_digits'].
  destruct (Z.leb_spec 0 X) as [Lc|Lc].
  - destruct (Sp (Z.to_nat (X + 1))) as (j & F1 & F2 & F3 & F4). exists (firstn (Z.to_nat (X + 1)) s), (strip0 (skipn (Z.to_nat (X + 1)) s)), [], 0, (Z.of_nat j).
    rewrite app_nil_r. split; [reflexivity|]. split; [|split; [exact F1|split; [exact F2|split; [constructor|split; [lia|split; [exact F3|split; [lia|split; [apply Lst, Hsk|left; auto with zarith]]]]]]]].
    replace (Z.to_nat (X + 1)) with (Datatypes.S (Z.to_nat X)) by lia. apply Hne.
  - destruct (Sp 0%nat) as (j & F1 & F2 & F3 & F4). cbn [firstn skipn app] in *. exists [48%N], (repeat 48%N (Z.to_nat (- X - 1)) ++ strip0 s), [], 0, (Z.of_nat j).
    rewrite app_nil_r. split; [reflexivity|]. split; [discriminate|]. split; [constructor; [unfold digit_char; lia|constructor]|].
    split; [apply digits_app; split; [apply digits_zeros|exact F2]|]. split; [constructor|]. split; [lia|]. split.
    + change ([48%N] ++ repeat 48%N (Z.to_nat (- X - 1)) ++ strip0 s) with (repeat 48%N (Datatypes.S (Z.to_nat (- X - 1))) ++ strip0 s). rewrite num_app, num_zeros. lia.
    + rewrite app_length, repeat_length. split; [nlia|]. split; [|left; auto with zarith].
      destruct (Lst s Hs) as [E|(t & c & E & Hc)].
      * exfalso. rewrite E in F3. unfold num in F3. cbn in F3. lia.
      * right. exists (repeat 48%N (Z.to_nat (- X - 1)) ++ t), c. rewrite E, app_assoc. auto.
Qed.

Lemma parts_numeral (neg : bool) ds fs ex k q : ds <> [] -> digits ds -> digits fs -> exponent ex k ->
  (q == signed neg (scaled 10 (num (ds ++ fs)) (k - Z.of_nat (length fs))))%Q -> numeral ((if neg then [45%N] else []) ++ ds ++ point fs ++ ex) q.
Proof. intros A B C D E. apply (numeral_ neg ds (point fs) fs ex k q A B C (point_frac fs) D E). Qed.

Lemma exponent_part ex k : exponent ex k -> ex = [] \/ exp_part ex.
Proof. destruct 1 as [|e sg ds A B C D]; [now left|right]. exists e, sg, ds. auto. Qed.
Lemma parts_float (neg : bool) ds fs ex k : ds <> [] -> digits ds -> digits fs -> exponent ex k -> fs <> [] \/ ex <> [] ->
  float_text ((if neg then [45%N] else []) ++ ds ++ point fs ++ ex).
Proof.
  intros A B C D E. apply ft; auto; [destruct neg; auto| |eapply exponent_part; eauto|].
  - destruct (point_frac fs) as [[-> _]|[-> H]]; [now left|right]. exists fs. auto.
  - destruct E as [E|E]; [left|now right]. destruct fs; [contradiction|discriminate].
Qed.
Lemma parts_int (neg : bool) ds : ds <> [] -> digits ds -> int_text (if neg then - num ds else num ds) ((if neg then [45%N] else []) ++ ds).
Proof. intros A B. destruct neg; cbn [app]; constructor; auto. Qed.

(* whole numbers below 10^12 and only these look like integers *)
Lemma whole_signed s q : whole (signed s q) <-> whole q.
Proof.
  assert (A : forall q, whole q -> whole (- q)%Q). { intros x (z & E & H). exists (- z). rewrite inject_Z_opp, E. split; [reflexivity|lia]. }
  destruct s; cbn [signed]; [|tauto]. split; intro H; [|now apply A]. apply A in H as (z & E & H). exists z. split; [rewrite <- E; ring|exact H].
Qed.
Lemma scaled_0 b m : (scaled b m 0 == inject_Z m)%Q.
Proof. unfold scaled. change (inject_Z b ^ 0)%Q with 1%Q. ring. Qed.
Lemma layout_form neg D X : 10 ^ 11 <= D < 10 ^ 12 -> let q := signed neg (scaled 10 D (X - 11)) in let t := (if neg then [45%N] else []) ++ layout D X in
  numeral t q /\ (whole q /\ (exists z, int_text z t) \/ ~ whole q /\ float_text t).
Proof.
  intros HD q t. destruct (layout_parts D X HD) as (ds & fs & ex & k & j & E & N & Dd & Df & Ex & Hj & ED & EL & Last & Cs).
  assert (Eq : (scaled 10 D (X - 11) == scaled 10 (num (ds ++ fs)) (k - Z.of_nat (length fs)))%Q) by (rewrite ED, scaled_shift, EL by lia; reflexivity).
  split. { unfold t. rewrite E. apply (parts_numeral neg ds fs ex k); auto. now apply signed_comp. }
  unfold q, t. rewrite E, whole_signed.
  destruct Cs as [(HX & -> & ->)|(HX & Nex)].
  - destruct Last as [->|(u & c & -> & Hc & Nc)].
    + left. split.
      * exists (num ds). rewrite Eq, app_nil_r. cbn [length Z.of_nat]. rewrite Z.sub_0_r. split; [apply scaled_0|]. 
        rewrite app_nil_r in ED. pose proof (num_nonneg ds). assert (0 < 10 ^ j) by (apply Z.pow_pos_nonneg; lia). nia.
      * cbn [point]. rewrite !app_nil_r. eexists. now apply parts_int.
    + right. split; [|apply (parts_float neg ds (u ++ [c]) [] 0); auto; left; destruct u; discriminate].
      intros (z & Ez & _). rewrite Eq in Ez. set (l := Z.of_nat (length (u ++ [c]))) in *.
      assert (Hl : 1 <= l) by (unfold l; rewrite app_length; cbn [length]; lia).
      assert (K : num (ds ++ u ++ [c]) = z * 10 ^ l).
      { apply inject_Z_injective. rewrite inject_Z_mult, <- Ez, <- pow_Z by lia. unfold scaled. rewrite <- Qmult_assoc, <- pow_add by lia.
        replace (0 - l + l) with 0 by lia. change (inject_Z 10 ^ 0)%Q with 1%Q. ring. }
      rewrite app_assoc, num_app in K. destruct (num_one c Hc) as [N1 N2]. cbn [length] in K. rewrite Z.pow_1_r in K.
      replace l with (1 + (l - 1)) in K by lia. rewrite Z.pow_add_r, Z.pow_1_r in K by lia. unfold digit_char in Hc.
      assert (num [c] = 10 * (z * 10 ^ (l - 1) - num (ds ++ u))) by lia. assert (num [c] = 0) by lia. lia.
  - right. split; [|apply (parts_float neg ds fs ex k); auto]. intros (z & Ez & Hz).
    destruct (Z.le_gt_cases 12 X) as [L|L].
    + assert (K : D * 10 ^ (X - 11) = z). { apply inject_Z_injective. rewrite <- Ez. unfold scaled. rewrite inject_Z_mult, pow_Z by lia. reflexivity. }
      assert (10 ^ 1 <= 10 ^ (X - 11)) by (apply Z.pow_le_mono_r; lia). nia.
    + assert (Hx : X < -4) by lia. assert (K : D = z * 10 ^ (11 - X)).
      { apply inject_Z_injective. rewrite inject_Z_mult, <- Ez, <- pow_Z by lia. unfold scaled. rewrite <- Qmult_assoc, <- pow_add by lia.
        replace (X - 11 + (11 - X)) with 0 by lia. change (inject_Z 10 ^ 0)%Q with 1%Q. ring. }
      assert (10 ^ 15 <= 10 ^ (11 - X)) by (apply Z.pow_le_mono_r; lia). assert (z <= 0 \/ 1 <= z) by lia. nia.
Qed.

(* ---- reading ---- *)
Lemma isdigit_char c : digit_char c -> isdigit c = true.
Proof. unfold digit_char, isdigit. intro H. apply andb_true_iff. split; apply N.leb_le; lia. Qed.
Lemma isdigit_not c : ~ digit_char c -> isdigit c = false.
Proof. unfold digit_char, isdigit. intro H. apply andb_false_iff. destruct (N.leb_spec 48 c); [right|now left]. apply N.leb_gt. lia. Qed.
Lemma span_app ds s : digits ds -> (match s with c :: _ => ~ digit_char c | [] => True end) -> span_digits (ds ++ s) = (ds, s).
Proof.
  intro H. revert s. induction H as [|c ds Hc _ IH]; intros s Hs; cbn [app span_digits].
  - destruct s as [|c s]; [reflexivity|]. cbn [span_digits]. now rewrite isdigit_not.
  - rewrite isdigit_char by exact Hc. now rewrite IH.
Qed.
Lemma undec_num ds : Z.of_N (undec ds) = num ds.
Proof. unfold num. rewrite dec_val_undec. reflexivity. Qed.
Lemma scan_exp_ok ex k : exponent ex k -> scan_exp ex = k.
Proof.
  destruct 1 as [|e sg ds He Hs Hn Hd]; [reflexivity|]. unfold scan_exp.
  assert (N.eqb e 101 || N.eqb e 69 = true)%bool as -> by (destruct He as [-> | ->]; reflexivity).
  assert (Sp : fst (span_digits ds) = ds). { rewrite <- (app_nil_r ds) at 1. rewrite span_app; auto. }
  destruct Hs as [-> |[-> | ->]]; cbn [app].
  - destruct ds as [|c ds]; [contradiction|]. inversion Hd as [|? ? Hc _]; subst. unfold digit_char in Hc.
    destruct (N.eqb_spec c 45); [lia|]. destruct (N.eqb_spec c 43); [lia|]. cbv iota beta zeta. rewrite Sp. now rewrite undec_num.
  - change (N.eqb 43 45) with false. change (N.eqb 43 43) with true. cbv iota beta zeta. rewrite Sp. now rewrite undec_num.
  - change (N.eqb 45 45) with true. cbv iota beta zeta. rewrite Sp. now rewrite undec_num.
Qed.
Lemma exponent_stop ex k : exponent ex k -> match ex with c :: _ => ~ digit_char c /\ c <> 46%N | [] => True end.
Proof. destruct 1 as [|e sg ds He Hs Hn Hd]; [exact Logic.I|]. unfold digit_char. destruct He as [-> | ->]; cbn; lia. Qed.
Lemma scan_ok t q : numeral t q -> exists neg M k, scan t = Ok (neg, M, k) /\ 0 <= M /\ (q == signed neg (scaled 10 M k))%Q.
Proof.
  destruct 1 as [neg ds fr fs ex k q N Dd Df Hfr Ex Eq]. exists neg, (num (ds ++ fs)), (k - Z.of_nat (length fs)). split; [|split; [apply num_nonneg|exact Eq]].
  assert (Sx := exponent_stop ex k Ex).
  assert (Body : (let '(ds0, s2) := span_digits (ds ++ fr ++ ex) in
      let '(fs0, s3) := match s2 with c :: s' => if N.eqb c 46 then span_digits s' else ([], s2) | [] => ([], []) end in
      match ds0 ++ fs0 with [] => Throw | all => Ok (neg, Z.of_N (undec all), scan_exp s3 - Z.of_nat (length fs0)) end) =
      Ok (neg, num (ds ++ fs), k - Z.of_nat (length fs))).
  { rewrite span_app.
    - destruct Hfr as [[-> ->]|[-> Hf]]; cbn [app].
      + assert ((match ex with c :: s' => if N.eqb c 46 then span_digits s' else ([], ex) | [] => ([], []) end) = ([], ex)) as ->.
        { destruct ex as [|c ex]; [reflexivity|]. destruct (N.eqb_spec c 46); [tauto|reflexivity]. }
        rewrite app_nil_r. cbn [length]. rewrite (scan_exp_ok ex k Ex), <- undec_num. destruct ds; [contradiction|reflexivity].
      + change (N.eqb 46 46) with true. cbv iota. rewrite span_app; [|exact Df|destruct ex; tauto].
        rewrite (scan_exp_ok ex k Ex), <- undec_num. destruct ds; [contradiction|reflexivity].
    - exact Dd.
    - destruct Hfr as [[-> ->]|[-> Hf]]; cbn [app]; [destruct ex; tauto|unfold digit_char; lia]. }
  unfold scan. destruct neg; cbn [app]; [change (N.eqb 45 45) with true; cbv iota; exact Body|]. destruct ds as [|c ds]; [contradiction|]. cbn [app] in *. inversion Dd as [|? ? Hc _]; subst. unfold digit_char in Hc. destruct (N.eqb_spec c 45); [lia|exact Body].
Qed.

Lemma strtod_ok t q : numeral t q -> ~ (q == 0)%Q -> (least_q <= Qabs q)%Q -> small q -> exists d, strtod t = Ok d /\ nearest_double q d /\ normal d.
Proof.
  intros H Hz Hl Hs. destruct (scan_ok t q H) as (neg & M & k & E & HM & Eq). unfold strtod. rewrite E. cbn [bind].
  destruct (Z.eqb_spec M 0) as [->|Nz]. { exfalso. apply Hz. rewrite Eq. unfold scaled. change (inject_Z 0) with 0%Q. destruct neg; cbn [signed]; ring. }
  set (x := scaled 10 M k) in *. assert (Hx : (0 < x)%Q) by (apply scaled_pos; lia).
  assert (Ax : (Qabs q == x)%Q) by (rewrite Eq, abs_signed, Qabs_pos by lra; reflexivity). rewrite Ax in Hl. unfold small in Hs. rewrite Ax in Hs.
  destruct (rnd 2 53 (Some (-1074)) x) as [m e] eqn:Er. destruct (rnd 2 53 None x) as [mu eu] eqn:Eu.
  pose proof (rnd_small x m e Hx Hs Er) as He. destruct (Z.ltb_spec 971 e); [lia|].
  assert (Heu : -1074 <= eu).
  { destruct (rnd_spec 2 53 None ltac:(lia) ltac:(lia) eq_refl x mu eu Hx Eu) as (_ & _ & _ & _ & _ & _ & F1 & F2 & F3).
    unfold least_q in Hl. rewrite scaled_1 in Hl. assert (-1022 < flog 2 x + 1) by (apply (pow_lt_inv 2 ltac:(lia)); lra). destruct (F3 eq_refl) as [F|[F _]]; lia. }
  destruct (Z.ltb_spec eu (-1074)); [lia|]. cbn [andb]. exists (Fin neg m e). split; [reflexivity|].
  pose proof (rnd_double x m e Hx Er He neg) as N. split; [eapply nearest_comp; [symmetry; exact Eq|exact N]|].
  destruct (rnd_spec 2 53 (Some (-1074)) ltac:(lia) ltac:(lia) eq_refl x m e Hx Er) as (Hm & _ & Hn & N1 & _). cbn [normal].
  destruct (Z.le_gt_cases (2 ^ 52) m) as [L|L]; [exact L|exfalso]. destruct Hn as [Hn|[= <-]]; [lia|].
  assert (G : grid 2 53 (Some (-1074)) least_q) by (exists 1, (-1022); split; [lia|]; split; [cbn; lia|reflexivity]). specialize (N1 _ G).
  assert (V : (scaled 2 m (-1074) < least_q)%Q).
  { unfold least_q. change (-1022) with (52 + -1074). rewrite <- scaled_shift by lia. apply scaled_lt; lia. }
  revert N1. rewrite (Qabs_pos (x - scaled 2 m (-1074))), (Qabs_pos (x - least_q)) by lra. lra.
Qed.
Lemma strtod_large t q : numeral t q -> ~ small q -> strtod t = Throw.
Proof.
  intros H Hs. destruct (scan_ok t q H) as (neg & M & k & E & HM & Eq). unfold strtod. rewrite E. cbn [bind].
  assert (Hl : (max_q <= Qabs q)%Q) by (apply Qnot_lt_le; exact Hs).
  assert (M0 : (0 < max_q)%Q) by (apply scaled_pos; lia).
  destruct (Z.eqb_spec M 0) as [->|Nz].
  { exfalso. rewrite Eq, abs_signed in Hl. unfold scaled in Hl at 1. change (inject_Z 0) with 0%Q in Hl. setoid_replace (0 * inject_Z 10 ^ k)%Q with 0%Q in Hl by ring. change (Qabs 0) with 0%Q in Hl. lra. }
  set (x := scaled 10 M k) in *. assert (Hx : (0 < x)%Q) by (apply scaled_pos; lia).
  assert (Ax : (Qabs q == x)%Q) by (rewrite Eq, abs_signed, Qabs_pos by lra; reflexivity). rewrite Ax in Hl.
  destruct (rnd 2 53 (Some (-1074)) x) as [m e] eqn:Er. destruct (rnd 2 53 None x) as [mu eu] eqn:Eu.
  pose proof (rnd_large x m e Hl Er). destruct (Z.ltb_spec 971 e); [reflexivity|lia].
Qed.
Lemma strtod_nearest t q d : numeral t q -> strtod t = Ok d -> ~ (q == 0)%Q -> nearest_double q d.
Proof.
  intros H Hd Hz. destruct (scan_ok t q H) as (neg & M & k & E & HM & Eq). unfold strtod in Hd. rewrite E in Hd. cbn [bind] in Hd.
  destruct (Z.eqb_spec M 0) as [->|Nz]. { exfalso. apply Hz. rewrite Eq. unfold scaled. change (inject_Z 0) with 0%Q. destruct neg; cbn [signed]; ring. }
  set (x := scaled 10 M k) in *. assert (Hx : (0 < x)%Q) by (apply scaled_pos; lia).
  destruct (rnd 2 53 (Some (-1074)) x) as [m e] eqn:Er. destruct (rnd 2 53 None x) as [mu eu] eqn:Eu.
  destruct (Z.ltb_spec 971 e) as [|L]; [discriminate|]. destruct (andb _ _); [discriminate|]. injection Hd as <-.
  eapply nearest_comp; [symmetry; exact Eq|]. now apply rnd_double.
Qed.
Lemma strtod_zero t : numeral t 0 -> exists s, strtod t = Ok (Fin s 0 (-1074)).
Proof.
  intro H. destruct (scan_ok t 0 H) as (neg & M & k & E & HM & Eq). unfold strtod. rewrite E. cbn [bind].
  destruct (Z.eqb_spec M 0) as [->|Nz]; [now exists neg|]. exfalso. pose proof (scaled_pos 10 M k ltac:(lia) ltac:(lia)). destruct neg; cbn [signed] in Eq; lra.
Qed.

(* the decimal a normal double is printed as is in range *)
Lemma printed_range m e D k : is_double (Fin false m e) -> 2 ^ 52 <= m -> rnd 10 12 None (scaled 2 m e) = (D, k) ->
  (least_q <= scaled 10 D k)%Q /\ (scaled 10 D k < max_q)%Q.
Proof.
  intros Hd Hm Hr. set (x := scaled 2 m e) in *. assert (Hx : (0 < x)%Q) by (apply scaled_pos; lia).
  destruct (rnd_decimal x D k Hx Hr) as (HD & ND). destruct (ND false) as (_ & N & _). cbn [signed] in N. set (v := scaled 10 D k) in *.
  assert (Gv : grid 10 12 None v) by (exists D, k; split; [lia|]; split; [exact Logic.I|reflexivity]).
  assert (Lx : (least_q <= x)%Q).
  { unfold least_q. change (scaled 2 1 (-1022)) with (scaled 2 1 (52 + -1074)). rewrite <- scaled_shift by lia. apply Qle_trans with (scaled 2 (2 ^ 52) e); [|apply scaled_le; lia].
    unfold scaled. pose proof (pow_le 2 ltac:(lia) (-1074) e ltac:(destruct Hd as (_ & ? & _); lia)). assert (0 < inject_Z (1 * 2 ^ 52))%Q by (unfold Qlt; cbn; lia). change (inject_Z (2 ^ 52)) with (inject_Z (1 * 2 ^ 52)). nra. }
  assert (Ux : (x <= scaled 2 (2 ^ 53 - 1) 971)%Q).
  { apply Qle_trans with (scaled 2 (2 ^ 53 - 1) e); [apply scaled_le; destruct Hd; lia|].
    unfold scaled. pose proof (pow_le 2 ltac:(lia) e 971 ltac:(destruct Hd as (_ & ? & _); lia)). assert (0 < inject_Z (2 ^ 53 - 1))%Q by (unfold Qlt; cbn; lia). nra. }
  split.
  - set (c := scaled 10 222507385851 (-319)). set (c' := scaled 10 222507385850 (-319)).
    assert (C1 : (c + c' < 2 * least_q)%Q) by (vm_compute; reflexivity). assert (C2 : (least_q < c)%Q) by (vm_compute; reflexivity).
    assert (Nc : (Qabs (x - v) <= Qabs (x - c))%Q) by (apply N; exists 222507385851, (-319); split; [lia|reflexivity]).
    destruct (gap 10 12 None ltac:(lia) ltac:(lia) 222507385850 (-319) v ltac:(lia) ltac:(left; lia) Gv) as [K|K].
    + fold (scaled 10 222507385850 (-319)) in K. fold c' in K. exfalso. revert Nc. apply Qabs_case; apply Qabs_case; intros; lra.
    + change (222507385850 + 1) with 222507385851 in K. fold (scaled 10 222507385851 (-319)) in K. fold c in K. lra.
  - set (c := scaled 10 179769313486 297). set (c' := scaled 10 179769313487 297).
    assert (C1 : (2 * scaled 2 (2 ^ 53 - 1) 971 < c + c')%Q) by (vm_compute; reflexivity). assert (C2 : (c < max_q)%Q) by (vm_compute; reflexivity).
    assert (C3 : (scaled 2 (2 ^ 53 - 1) 971 < c')%Q) by (vm_compute; reflexivity).
    assert (Nc : (Qabs (x - v) <= Qabs (x - c))%Q) by (apply N; exists 179769313486, 297; split; [lia|reflexivity]).
    destruct (gap 10 12 None ltac:(lia) ltac:(lia) 179769313486 297 v ltac:(lia) ltac:(left; lia) Gv) as [K|K].
    + fold (scaled 10 179769313486 297) in K. fold c in K. lra.
    + change (179769313486 + 1) with 179769313487 in K. fold (scaled 10 179769313487 297) in K. fold c' in K. exfalso. assert (c < c')%Q by (vm_compute; reflexivity). revert Nc. apply Qabs_case; apply Qabs_case; intros; lra.
Qed.
(* twelve digits determine mantissa and exponent *)
Lemma decimal_canonical D k D' k' : 10 ^ 11 <= D < 10 ^ 12 -> 10 ^ 11 <= D' < 10 ^ 12 -> (scaled 10 D k == scaled 10 D' k')%Q -> D = D' /\ k = k'.
Proof.
  assert (A : forall D k D' k', 10 ^ 11 <= D < 10 ^ 12 -> 10 ^ 11 <= D' < 10 ^ 12 -> (scaled 10 D k == scaled 10 D' k')%Q -> k <= k' -> D = D' /\ k = k').
  { clear. intros D k D' k' H H' E L. replace k' with ((k' - k) + k) in E by lia. rewrite <- scaled_shift in E by lia.
    assert (Em : D = D' * 10 ^ (k' - k)).
    { destruct (Z.lt_total D (D' * 10 ^ (k' - k))) as [K|[K|K]]; [|exact K|]; apply (scaled_lt 10 _ _ k ltac:(lia)) in K; lra. }
    destruct (Z.eq_dec k k') as [->|Ne]; [rewrite Z.sub_diag, Z.pow_0_r in Em; lia|exfalso].
    assert (10 ^ 1 <= 10 ^ (k' - k)) by (apply Z.pow_le_mono_r; lia). nia. }
  intros H H' E. destruct (Z.le_gt_cases k k') as [L|L]; [now apply A|]. destruct (A D' k' D k H' H) as [-> ->]; [now rewrite E|lia|auto].
Qed.
