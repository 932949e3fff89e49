(* ProofDouble1.v - rnd gives the nearest number with p digits in base b (for C78). *)
From Coq Require Import ZArith QArith Qabs Qround Qpower Lia Lqa Setoid.
From Verif Require Import Base SpecDouble ModelDouble.
Local Open Scope Z_scope.

(* ---- powers ---- *)
Section Pow.
Context (b : Z) (Hb : 2 <= b).
Notation B := (inject_Z b).
Lemma B_nz : ~ (B == 0)%Q.
Proof. unfold Qeq. cbn. lia. Qed.
Lemma pow_add i j : (B ^ (i + j) == B ^ i * B ^ j)%Q.
Proof. apply Qpower_plus. apply B_nz. Qed.
Lemma pow_Z i : 0 <= i -> (B ^ i == inject_Z (b ^ i))%Q.
Proof. intro H. symmetry. now apply Zpower_Qpower. Qed.
Lemma pow_inv i : (B ^ i * B ^ (- i) == 1)%Q.
Proof. rewrite <- pow_add. rewrite Z.add_opp_diag_r. reflexivity. Qed.
Lemma pow_gt0 i : (0 < B ^ i)%Q.
Proof.
  assert (P : forall j, 0 <= j -> (0 < B ^ j)%Q).
  { intros j Hj. rewrite pow_Z by exact Hj. unfold Qlt. cbn. assert (0 < b ^ j) by (apply Z.pow_pos_nonneg; lia). lia. }
  destruct (Z.le_gt_cases 0 i) as [H|H]; [now apply P|]. specialize (P (- i) ltac:(lia)). pose proof (pow_inv i) as E. nra.
Qed.
Lemma pow_le i j : i <= j -> (B ^ i <= B ^ j)%Q.
Proof.
  intro H. replace j with (i + (j - i)) by lia. rewrite pow_add. assert (1 <= B ^ (j - i))%Q.
  { rewrite pow_Z by lia. unfold Qle. cbn. assert (0 < b ^ (j - i)) by (apply Z.pow_pos_nonneg; lia). lia. }
  pose proof (pow_gt0 i). nra.
Qed.
Lemma pow_lt i j : i < j -> (B ^ i < B ^ j)%Q.
Proof.
  intro H. replace j with (i + (j - i)) by lia. rewrite pow_add. assert (1 < B ^ (j - i))%Q.
  { rewrite pow_Z by lia. unfold Qlt. cbn. assert (1 < b ^ (j - i)) by (apply Z.pow_gt_1; lia). lia. }
  pose proof (pow_gt0 i). nra.
Qed.
Lemma pow_lt_inv i j : (B ^ i < B ^ j)%Q -> i < j.
Proof. intro H. destruct (Z.lt_ge_cases i j) as [L|L]; [exact L|]. apply pow_le in L. lra. Qed.

(* ---- logarithms ---- *)
Lemma ilog_spec : forall fuel n, 1 <= n -> (Z.to_nat (Z.log2 n) < fuel)%nat -> 0 <= ilog fuel b n /\ b ^ ilog fuel b n <= n < b ^ (ilog fuel b n + 1).
Proof.
  induction fuel as [|f IH]; intros n Hn Hf; [lia|]. cbn [ilog]. destruct (Z.ltb_spec n b) as [L|L].
  - rewrite Z.pow_0_r, Z.add_0_l, Z.pow_1_r. lia.
  - assert (1 <= n / b) by (apply Z.div_le_lower_bound; lia).
    assert (Z.log2 (n / b) < Z.log2 n).
    { assert (n / b <= n / 2) by (apply Z.div_le_compat_l; lia). 
      assert (Z.log2 (n / b) <= Z.log2 (n / 2)) by (apply Z.log2_le_mono; lia).
      assert (Z.log2 (n / 2) < Z.log2 n); [|lia].
      rewrite <- Z.div2_div. destruct (Z.log2_spec n ltac:(lia)) as [A _].
      assert (0 < Z.log2 n) by (apply Z.log2_pos; lia).
      apply Z.log2_lt_pow2; [rewrite Z.div2_div; apply Z.div_str_pos; lia|].
      rewrite Z.div2_div. apply Z.div_lt_upper_bound; [lia|]. destruct (Z.log2_spec n ltac:(lia)) as [_ A2].
      replace (Z.succ (Z.log2 n)) with (1 + Z.log2 n) in A2 by lia. rewrite Z.pow_add_r in A2 by lia. lia. }
    destruct (IH (n / b)) as (G & L1 & L2); [lia| |].
    { pose proof (Z.log2_nonneg (n / b)). lia. }
    split; [lia|]. set (k := ilog f b (n / b)) in *. pose proof (Z.div_mod n b ltac:(lia)) as E. pose proof (Z.mod_pos_bound n b ltac:(lia)) as M.
    replace (1 + k + 1) with (1 + (k + 1)) by lia. rewrite !(Z.pow_add_r b 1) by lia. rewrite Z.pow_1_r. nia.
Qed.
Lemma flog_spec q : (0 < q)%Q -> (B ^ flog b q <= q)%Q /\ (q < B ^ (flog b q + 1))%Q.
Proof.
  intro Hq. unfold flog.
  assert (Hn : 1 <= Qnum q) by (unfold Qlt in Hq; cbn in Hq; lia).
  destruct (ilog_spec (Datatypes.S (Z.to_nat (Z.log2 (Qnum q)))) (Qnum q) Hn ltac:(lia)) as (G1 & L1 & U1).
  destruct (ilog_spec (Datatypes.S (Z.to_nat (Z.log2 (QDen q)))) (QDen q) ltac:(lia) ltac:(lia)) as (G2 & L2 & U2).
  set (i := ilog _ b (Qnum q)) in *. set (j := ilog _ b (QDen q)) in *.
  assert (Eq : (q == inject_Z (Qnum q) / inject_Z (QDen q))%Q) by (destruct q; apply Qmake_Qdiv).
  assert (D0 : (0 < inject_Z (QDen q))%Q) by (unfold Qlt; cbn; lia).
  assert (Eq2 : (q * inject_Z (QDen q) == inject_Z (Qnum q))%Q) by (rewrite Eq at 1; field; lra).
  clear Eq.
  rewrite Zle_Qle in L1, L2. rewrite Zlt_Qlt in U1, U2. rewrite <- pow_Z in L1, L2, U1, U2 by lia.
  pose proof (pow_gt0 i). pose proof (pow_gt0 j).
  assert (Hi : (B ^ i == B ^ (i - j) * B ^ j)%Q) by (rewrite <- pow_add; now rewrite Z.sub_add).
  assert (Lo : (B ^ (i - j - 1) < q)%Q).
  { assert (E : (B ^ i == B ^ (i - j - 1) * B ^ (j + 1))%Q) by (rewrite <- pow_add; replace (i - j - 1 + (j + 1)) with i by lia; reflexivity).
    pose proof (pow_gt0 (i - j - 1)). nra. }
  assert (Hi2 : (q < B ^ (i - j + 1))%Q).
  { assert (E : (B ^ (i + 1) == B ^ (i - j + 1) * B ^ j)%Q) by (rewrite <- pow_add; replace (i - j + 1 + j) with (i + 1) by lia; reflexivity).
    pose proof (pow_gt0 (i - j + 1)). nra. }
  destruct (Qle_bool (B ^ (i - j)) q) eqn:C.
  - apply Qle_bool_iff in C. split; [exact C|exact Hi2].
  - assert (q < B ^ (i - j))%Q. { apply Qnot_le_lt. intro K. apply Qle_bool_iff in K. congruence. }
    replace (i - j - 1 + 1) with (i - j) by lia. split; lra.
Qed.
End Pow.

(* ---- rounding to an integer ---- *)
Lemma rint_spec q : exists f, f <= rint q <= f + 1 /\ (inject_Z f <= q)%Q /\ (q < inject_Z f + 1)%Q /\
  (rint q = f -> (2 * (q - inject_Z f) <= 1)%Q /\ ((2 * (q - inject_Z f) == 1)%Q -> Z.even f = true)) /\
  (rint q = f + 1 -> (1 <= 2 * (q - inject_Z f))%Q /\ ((2 * (q - inject_Z f) == 1)%Q -> Z.even (f + 1) = true)).
Proof.
  exists (Qfloor q). pose proof (Qfloor_le q) as L. pose proof (Qlt_floor q) as U. rewrite inject_Z_plus in U. change (inject_Z 1) with 1%Q in U.
  unfold rint. destruct (Qcompare (2 * (q - inject_Z (Qfloor q))) 1) eqn:C.
  - apply Qeq_alt in C. destruct (Z.even (Qfloor q)) eqn:E; (split; [lia|]); (split; [exact L|]); (split; [exact U|]); split; intro K; try lia; split; try lra; intros _; try exact E.
    rewrite Z.even_add, E. reflexivity.
  - apply Qlt_alt in C. split; [lia|]. split; [exact L|]. split; [exact U|]. split; intro K; [|lia]. split; lra.
  - apply Qgt_alt in C. split; [lia|]. split; [exact L|]. split; [exact U|]. split; intro K; [lia|]. split; lra.
Qed.

(* ---- the grid ---- *)
Definition above (emin : option Z) (e : Z) : Prop := match emin with Some l => l <= e | None => True end.
Definition grid (b p : Z) (emin : option Z) (y : Q) : Prop := exists m e, Z.abs m < b ^ p /\ above emin e /\ (y == scaled b m e)%Q.

Section Rnd.
Context (b p : Z) (emin : option Z) (Hb : 2 <= b) (Hp : 2 <= p) (Hev : Z.even b = true).
Notation B := (inject_Z b).
Lemma gap m e y : 0 <= m -> (b ^ (p - 1) <= m \/ emin = Some e) -> grid b p emin y ->
  (y <= inject_Z m * B ^ e)%Q \/ (inject_Z (m + 1) * B ^ e <= y)%Q.
Proof.
  intros Hm Hn (m' & e' & Hm' & He' & Ey). unfold scaled in Ey.
  destruct (Z.le_gt_cases e e') as [L|L].
  - assert (E : (y == inject_Z (m' * b ^ (e' - e)) * B ^ e)%Q).
    { rewrite Ey. replace e' with (e' - e + e) at 1 by lia. rewrite pow_add by lia. rewrite (pow_Z b (e' - e)) by lia. rewrite inject_Z_mult. ring. }
    pose proof (pow_gt0 b Hb e). rewrite E.
    destruct (Z.le_gt_cases (m' * b ^ (e' - e)) m) as [K|K].
    + left. rewrite Zle_Qle in K. nra.
    + right. assert (K' : m + 1 <= m' * b ^ (e' - e)) by lia. rewrite Zle_Qle in K'. nra.
  - left. destruct Hn as [Hn|Hn]; [|subst emin; cbn in He'; lia].
    assert (K : m' < b ^ p) by lia. rewrite Ey.
    assert (E : (B ^ e == B ^ (e - e' - 1) * B * B ^ e')%Q).
    { replace e with ((e - e' - 1) + (1 + e')) at 1 by lia. rewrite pow_add by lia. rewrite pow_add by lia. ring. }
    assert (G1 : (1 <= B ^ (e - e' - 1))%Q). { change 1%Q with (B ^ 0)%Q. apply pow_le; lia. }
    pose proof (pow_gt0 b Hb e'). assert (Hpp : b ^ p = b ^ (p - 1) * b). { replace p with (p - 1 + 1) at 1 by lia. rewrite Z.pow_add_r by lia. now rewrite Z.pow_1_r. }
    assert (K2 : m' <= m * b) by nia. rewrite Zle_Qle, inject_Z_mult in K2. 
    assert (Hm0 : (0 <= inject_Z m)%Q) by (change 0%Q with (inject_Z 0); rewrite <- Zle_Qle; lia).
    assert (HB : (0 < B)%Q) by (change 0%Q with (inject_Z 0); rewrite <- Zlt_Qlt; lia).
    rewrite E. assert (inject_Z m' * B ^ e' <= inject_Z m * B * B ^ e')%Q by nra.
    assert (0 <= inject_Z m * B * B ^ e')%Q by (apply Qmult_le_0_compat; [apply Qmult_le_0_compat; lra|lra]).
    assert (inject_Z m * (B ^ (e - e' - 1) * B * B ^ e') == B ^ (e - e' - 1) * (inject_Z m * B * B ^ e'))%Q as -> by ring. nra.
Qed.

Lemma pow_p_pos : 0 < b ^ (p - 1) /\ b ^ p = b * b ^ (p - 1) /\ Z.even (b ^ p) = true /\ Z.even (b ^ (p - 1)) = true.
Proof.
  split; [apply Z.pow_pos_nonneg; lia|]. split; [|split].
  - replace p with (1 + (p - 1)) at 1 by lia. rewrite Z.pow_add_r by lia. now rewrite Z.pow_1_r.
  - rewrite Z.even_pow; [exact Hev|lia].
  - rewrite Z.even_pow; [exact Hev|lia].
Qed.

(* what rnd returns *)
Lemma rnd_spec q m e : (0 < q)%Q -> rnd b p emin q = (m, e) ->
  0 <= m < b ^ p /\ above emin e /\ (b ^ (p - 1) <= m \/ emin = Some e) /\
  (forall y, grid b p emin y -> (Qabs (q - scaled b m e) <= Qabs (q - y))%Q) /\
  (forall y, grid b p emin y -> (Qabs (q - scaled b m e) == Qabs (q - y))%Q -> (y == scaled b m e)%Q \/ Z.even m = true) /\
  (2 * Qabs (q - scaled b m e) <= B ^ e)%Q /\
  (q < B ^ (flog b q + 1))%Q /\ (B ^ flog b q <= q)%Q /\
  (emin = None -> e = flog b q - (p - 1) \/ e = flog b q - (p - 1) + 1 /\ m = b ^ (p - 1)).
Proof.
  intros Hq. unfold rnd. set (e0 := flog b q - (p - 1)). set (e1 := match emin with Some l => Z.max e0 l | None => e0 end).
  destruct (flog_spec b Hb q Hq) as (F1 & F2). destruct pow_p_pos as (P1 & P2 & P3 & P4).
  set (u := (q * B ^ (- e1))%Q). pose proof (pow_gt0 b Hb e1) as G. pose proof (pow_inv b Hb e1) as I1.
  assert (Eu : (q == u * B ^ e1)%Q) by (unfold u; rewrite <- Qmult_assoc, (Qmult_comm (B ^ (- e1))), I1; ring).
  assert (E01 : e0 <= e1) by (unfold e1; destruct emin; lia).
  assert (Ab : above emin e1) by (unfold e1, above; destruct emin; lia).
  destruct (rint_spec u) as (f & Hf & L & U & R1 & R2). set (r := rint u) in *.
  (* the bounds of u *)
  assert (U2 : (u < inject_Z (b ^ p))%Q).
  { rewrite <- pow_Z by lia. assert (q < B ^ p * B ^ e1)%Q; [|nra]. rewrite <- pow_add by lia.
    assert (B ^ (flog b q + 1) <= B ^ (p + e1))%Q by (apply pow_le; unfold e0 in *; lia). lra. }
  assert (U1 : e1 = e0 -> (inject_Z (b ^ (p - 1)) <= u)%Q).
  { intro E. rewrite <- pow_Z by lia. assert (B ^ (p - 1) * B ^ e1 <= q)%Q; [|nra]. rewrite <- pow_add by lia. rewrite E. unfold e0.
    replace (p - 1 + (flog b q - (p - 1))) with (flog b q) by lia. exact F1. }
  assert (U0 : (0 < u)%Q) by nra.
  assert (F0 : 0 <= f). { assert (0 < f + 1); [|lia]. rewrite Zlt_Qlt. rewrite inject_Z_plus. change (inject_Z 0) with 0%Q; change (inject_Z 1) with 1%Q. lra. }
  assert (Fp : f < b ^ p) by (rewrite Zlt_Qlt; lra).
  assert (Fn : b ^ (p - 1) <= f \/ emin = Some e1).
  { destruct (Z.eq_dec e1 e0) as [E|E].
    - left. specialize (U1 E). assert (b ^ (p - 1) < f + 1); [|lia]. rewrite Zlt_Qlt. rewrite inject_Z_plus. change (inject_Z 1) with 1%Q. lra.
    - right. unfold e1 in E |- *. destruct emin as [l|]; [|congruence]. f_equal. lia. }
  assert (Near : forall y, grid b p emin y -> (Qabs (q - inject_Z r * B ^ e1) <= Qabs (q - y))%Q /\
     ((Qabs (q - inject_Z r * B ^ e1) == Qabs (q - y))%Q -> (y == inject_Z r * B ^ e1)%Q \/ Z.even r = true)).
  { intros y Hy. pose (v := (y * B ^ (- e1))%Q).
    assert (Ev : (y == v * B ^ e1)%Q) by (unfold v; rewrite <- Qmult_assoc, (Qmult_comm (B ^ (- e1))), I1; ring).
    assert (V : (v <= inject_Z f)%Q \/ (inject_Z f + 1 <= v)%Q).
    { destruct (gap f e1 y F0 Fn Hy) as [K|K]; [left|right]; rewrite Ev in K; [nra|]. rewrite inject_Z_plus in K. change (inject_Z 1) with 1%Q in K. nra. }
    assert (A : forall x, (Qabs (q - x * B ^ e1) == Qabs (u - x) * B ^ e1)%Q).
    { intro x. rewrite Eu. setoid_replace (u * B ^ e1 - x * B ^ e1)%Q with ((u - x) * B ^ e1)%Q by ring. rewrite Qabs_Qmult, (Qabs_pos (B ^ e1)); [reflexivity|lra]. }
    rewrite Ev, !A. assert (S : (Qabs (u - inject_Z r) <= Qabs (u - v))%Q /\ ((Qabs (u - inject_Z r) == Qabs (u - v))%Q -> (v == inject_Z r)%Q \/ Z.even r = true)).
    { assert (C : r = f \/ r = f + 1) by lia. destruct C as [C|C].
      - destruct (R1 C) as (H1 & H2). rewrite C. rewrite (Qabs_pos (u - inject_Z f)) by lra. destruct V as [V|V].
        + rewrite (Qabs_pos (u - v)) by lra. split; [lra|]. intro H. left. lra.
        + rewrite (Qabs_neg (u - v)) by lra. split; [lra|]. intro H. right. apply H2. lra.
      - destruct (R2 C) as (H1 & H2). rewrite C. rewrite inject_Z_plus. change (inject_Z 1) with 1%Q. rewrite (Qabs_neg (u - (inject_Z f + 1))) by lra. destruct V as [V|V].
        + rewrite (Qabs_pos (u - v)) by lra. split; [lra|]. intro H. right. apply H2. lra.
        + rewrite (Qabs_neg (u - v)) by lra. split; [lra|]. intro H. left. lra. }
    destruct S as (S1 & S2). split; [nra|]. intro H. destruct S2 as [S2|S2]; [apply (Qmult_inj_r _ _ (B ^ e1)); lra|left; rewrite S2; reflexivity|now right]. }
  assert (Half : (2 * Qabs (q - inject_Z r * B ^ e1) <= B ^ e1)%Q).
  { assert (C : r = f \/ r = f + 1) by lia. destruct C as [C|C].
    - destruct (R1 C) as (H1 & _). rewrite C. rewrite Qabs_pos by nra. nra.
    - destruct (R2 C) as (H1 & _). rewrite C. rewrite inject_Z_plus. change (inject_Z 1) with 1%Q. rewrite Qabs_neg by nra. nra. }
  destruct (Z.eqb_spec r (b ^ p)) as [E|E]; intro Er; apply pair_equal_spec in Er as [<- <-].
  - assert (Es : (scaled b (b ^ (p - 1)) (e1 + 1) == inject_Z r * B ^ e1)%Q).
    { unfold scaled. rewrite pow_add by lia. rewrite E. rewrite P2, inject_Z_mult. change (B ^ 1)%Q with B. ring. }
    split; [nia|]. split; [unfold above in *; destruct emin; lia|]. split; [left; lia|].
    split; [intros y Hy; rewrite Es; now apply Near|]. split; [intros y Hy; rewrite Es; intro H; now right|].
    split; [rewrite Es; pose proof (pow_le b Hb e1 (e1 + 1) ltac:(lia)); lra|]. split; [exact F2|]. split; [exact F1|].
    intros ->. right. split; [reflexivity|reflexivity].
  - assert (Rp : r < b ^ p) by lia.
    split; [lia|]. split; [exact Ab|]. split; [destruct Fn as [Fn|Fn]; [left; lia|now right]|].
    split; [intros y Hy; unfold scaled; now apply Near|]. split; [intros y Hy; unfold scaled; now apply Near|].
    split; [exact Half|]. split; [exact F2|]. split; [exact F1|]. intros ->. now left.
Qed.
End Rnd.
