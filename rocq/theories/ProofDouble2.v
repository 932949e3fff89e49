(* ProofDouble2.v - doubles and decimals as grids; uniqueness of the nearest double; twelve
   digits fit into a double (for C78). *)
From Coq Require Import ZArith QArith Qabs Qround Qpower Lia Lqa Setoid.
From Verif Require Import Base SpecDouble ModelDouble ProofDouble1.
Local Open Scope Z_scope.

Lemma scaled_pos b m e : 2 <= b -> 0 < m -> (0 < scaled b m e)%Q.
Proof. intros Hb Hm. unfold scaled. pose proof (pow_gt0 b Hb e). rewrite Zlt_Qlt in Hm. change (inject_Z 0) with 0%Q in Hm. nra. Qed.
Lemma scaled_nonneg b m e : 2 <= b -> 0 <= m -> (0 <= scaled b m e)%Q.
Proof. intros Hb Hm. unfold scaled. pose proof (pow_gt0 b Hb e). rewrite Zle_Qle in Hm. change (inject_Z 0) with 0%Q in Hm. nra. Qed.
Lemma scaled_opp b m e : (scaled b (- m) e == - scaled b m e)%Q.
Proof. unfold scaled. rewrite inject_Z_opp. ring. Qed.
Lemma scaled_shift b m i e : 2 <= b -> 0 <= i -> (scaled b (m * b ^ i) e == scaled b m (i + e))%Q.
Proof. intros Hb Hi. unfold scaled. rewrite pow_add, (pow_Z b i), inject_Z_mult by lia. ring. Qed.
Lemma scaled_lt b m m' e : 2 <= b -> (m < m' <-> (scaled b m e < scaled b m' e)%Q).
Proof.
  intro Hb. unfold scaled. pose proof (pow_gt0 b Hb e). rewrite Zlt_Qlt. split; intro K; nra.
Qed.
Lemma scaled_le b m m' e : 2 <= b -> (m <= m' <-> (scaled b m e <= scaled b m' e)%Q).
Proof.
  intro Hb. unfold scaled. pose proof (pow_gt0 b Hb e). rewrite Zle_Qle. split; intro K; nra.
Qed.
Lemma scaled_add b m m' e : (scaled b (m + m') e == scaled b m e + scaled b m' e)%Q.
Proof. unfold scaled. rewrite inject_Z_plus. ring. Qed.
Lemma scaled_1 b e : (scaled b 1 e == inject_Z b ^ e)%Q.
Proof. unfold scaled. change (inject_Z 1) with 1%Q. ring. Qed.

Lemma signed_abs s x y : (Qabs (signed s x - signed s y) == Qabs (x - y))%Q.
Proof. destruct s; cbn [signed]; [|reflexivity]. setoid_replace (- x - - y)%Q with (- (x - y))%Q by ring. apply Qabs_opp. Qed.
Lemma signed_signed s x : (signed s (signed s x) == x)%Q.
Proof. destruct s; cbn; ring. Qed.
Lemma signed_move s x y : (Qabs (signed s x - y) == Qabs (x - signed s y))%Q.
Proof. rewrite <- (signed_abs s x (signed s y)). destruct s; cbn [signed]; [setoid_replace (- - y)%Q with y by ring|]; reflexivity. Qed.
Lemma signed_comp s x y : (x == y)%Q -> (signed s x == signed s y)%Q.
Proof. intro E. destruct s; cbn; rewrite E; reflexivity. Qed.
Lemma abs_signed s x : (Qabs (signed s x) == Qabs x)%Q.
Proof. destruct s; cbn [signed]; [apply Qabs_opp|reflexivity]. Qed.

(* finite doubles are grid points *)
Notation dgrid := (grid 2 53 (Some (-1074))).
Lemma double_grid s d : is_double d -> finite d -> dgrid (signed s (value d)).
Proof.
  destruct d as [t m e| |]; cbn [is_double finite]; try contradiction. intros (Hm & He & _) _. cbn [value].
  assert (forall g, dgrid (signed g (scaled 2 m e))) as H.
  { intros []; cbn [signed]; [exists (- m), e|exists m, e]; (split; [lia|]); (split; [cbn; lia|]); [now rewrite scaled_opp|reflexivity]. }
  destruct s, t; cbn [signed] in *; try exact (H false); try exact (H true).
  destruct (H false) as (m' & e' & A & C & E). exists m', e'. repeat split; auto. cbn [signed] in E. rewrite <- E. ring.
Qed.
Lemma decimal_grid q : decimal 12 q <-> grid 10 12 None q.
Proof. split; intros (m & k & H); exists m, k; cbn [above] in *; tauto. Qed.
Lemma decimal_opp n q : decimal n q -> decimal n (- q)%Q.
Proof. intros (m & k & H & E). exists (- m), k. split; [lia|]. rewrite scaled_opp, E. reflexivity. Qed.
Lemma decimal_signed n s q : decimal n q -> decimal n (signed s q).
Proof. destruct s; [apply decimal_opp|auto]. Qed.

(* ---- rounding to a double ---- *)
Lemma rnd_double q m e : (0 < q)%Q -> rnd 2 53 (Some (-1074)) q = (m, e) -> e <= 971 -> forall s, nearest_double (signed s q) (Fin s m e).
Proof.
  intros Hq Hr He s. destruct (rnd_spec 2 53 (Some (-1074)) ltac:(lia) ltac:(lia) eq_refl q m e Hq Hr) as (Hm & Ha & Hn & N1 & N2 & _).
  cbn [above] in Ha. split; [|split; [exact Logic.I|]].
  - cbn [is_double]. split; [lia|]. split; [lia|]. destruct Hn as [Hn|[= <-]]; [left; change (2 ^ (53 - 1)) with (2 ^ 52) in Hn; exact Hn|now right].
  - cbn [value]. assert (A : forall d, (Qabs (signed s q - value d) == Qabs (q - signed s (value d)))%Q).
    { intro d. rewrite <- (signed_abs s q (signed s (value d))). destruct s; cbn [signed]; [|reflexivity].
      setoid_replace (- - value d)%Q with (value d)%Q by ring. reflexivity. }
    split; intros d Fd Nd; rewrite signed_abs, A.
    + apply N1. now apply double_grid.
    + intro E. destruct (N2 (signed s (value d)) (double_grid s d Fd Nd) E) as [K|K]; [left|now right].
      rewrite <- (signed_signed s (value d)). now apply signed_comp.
Qed.
Lemma max_grid : dgrid (scaled 2 (2 ^ 53 - 1) 971).
Proof. exists (2 ^ 53 - 1), 971. split; [lia|]. split; [cbn; lia|reflexivity]. Qed.
Lemma rnd_small q m e : (0 < q)%Q -> (q < max_q)%Q -> rnd 2 53 (Some (-1074)) q = (m, e) -> e <= 971.
Proof.
  intros Hq Hs Hr. destruct (rnd_spec 2 53 (Some (-1074)) ltac:(lia) ltac:(lia) eq_refl q m e Hq Hr) as (Hm & Ha & Hn & N1 & _).
  destruct (Z.le_gt_cases e 971) as [L|L]; [exact L|exfalso].
  assert (Hm2 : 2 ^ 52 <= m). { destruct Hn as [Hn|[= Hn]]; [exact Hn|lia]. }
  assert (V : (scaled 2 (2 ^ 54) 970 <= scaled 2 m e)%Q).
  { change (2 ^ 54) with (2 ^ 52 * 2 ^ 2). rewrite scaled_shift by lia. change (2 + 970) with 972.
    apply Qle_trans with (scaled 2 (2 ^ 52) e); [|apply scaled_le; lia]. unfold scaled. pose proof (pow_le 2 ltac:(lia) 972 e ltac:(lia)).
    assert (0 < inject_Z (2 ^ 52))%Q by (unfold Qlt; cbn; lia). nra. }
  specialize (N1 _ max_grid). assert (Mx : (scaled 2 (2 ^ 53 - 1) 971 == scaled 2 (2 ^ 54 - 2) 970)%Q).
  { change (2 ^ 54 - 2) with ((2 ^ 53 - 1) * 2 ^ 1). rewrite scaled_shift by lia. reflexivity. }
  rewrite Mx in N1. unfold max_q in Hs.
  assert (T1 : (scaled 2 (2 ^ 54 - 1) 970 == scaled 2 (2 ^ 54 - 2) 970 + inject_Z 2 ^ 970)%Q).
  { rewrite <- scaled_1, <- scaled_add. reflexivity. }
  assert (T2 : (scaled 2 (2 ^ 54) 970 == scaled 2 (2 ^ 54 - 2) 970 + 2 * inject_Z 2 ^ 970)%Q).
  { rewrite <- scaled_1. setoid_replace (2 * scaled 2 1 970)%Q with (scaled 2 2 970) by (unfold scaled; change (inject_Z 1) with 1%Q; change (inject_Z 2) with 2%Q; ring). rewrite <- scaled_add. reflexivity. }
  pose proof (pow_gt0 2 ltac:(lia) 970) as G. set (g := (inject_Z 2 ^ 970)%Q) in *. set (a := scaled 2 (2 ^ 54 - 2) 970) in *.
  rewrite (Qabs_neg (q - scaled 2 m e)) in N1 by lra. revert N1. apply Qabs_case; intros; lra.
Qed.
Lemma rnd_large q m e : (max_q <= q)%Q -> rnd 2 53 (Some (-1074)) q = (m, e) -> 971 < e.
Proof.
  intros Hs Hr. assert (Hq : (0 < q)%Q). { eapply Qlt_le_trans; [|exact Hs]. apply scaled_pos; lia. }
  destruct (rnd_spec 2 53 (Some (-1074)) ltac:(lia) ltac:(lia) eq_refl q m e Hq Hr) as (Hm & Ha & Hn & N1 & N2 & _).
  destruct (Z.lt_ge_cases 971 e) as [L|L]; [exact L|exfalso].
  assert (V : (scaled 2 m e <= scaled 2 (2 ^ 53 - 1) 971)%Q).
  { apply Qle_trans with (scaled 2 (2 ^ 53 - 1) e); [apply scaled_le; lia|]. unfold scaled. pose proof (pow_le 2 ltac:(lia) e 971 ltac:(lia)).
    assert (0 < inject_Z (2 ^ 53 - 1))%Q by (unfold Qlt; cbn; lia). nra. }
  assert (Gr : dgrid (scaled 2 (2 ^ 52) 972)) by (exists (2 ^ 52), 972; split; [lia|]; split; [cbn; lia|reflexivity]).
  assert (E2 : (scaled 2 (2 ^ 52) 972 == scaled 2 (2 ^ 54) 970)%Q).
  { change (2 ^ 54) with (2 ^ 52 * 2 ^ 2). rewrite scaled_shift by lia. reflexivity. }
  assert (Mx : (scaled 2 (2 ^ 53 - 1) 971 == scaled 2 (2 ^ 54 - 2) 970)%Q).
  { change (2 ^ 54 - 2) with ((2 ^ 53 - 1) * 2 ^ 1). rewrite scaled_shift by lia. reflexivity. }
  assert (T1 : (scaled 2 (2 ^ 54 - 1) 970 == scaled 2 (2 ^ 54 - 2) 970 + inject_Z 2 ^ 970)%Q).
  { rewrite <- scaled_1, <- scaled_add. reflexivity. }
  assert (T2 : (scaled 2 (2 ^ 54) 970 == scaled 2 (2 ^ 54 - 2) 970 + 2 * inject_Z 2 ^ 970)%Q).
  { rewrite <- scaled_1. setoid_replace (2 * scaled 2 1 970)%Q with (scaled 2 2 970) by (unfold scaled; change (inject_Z 1) with 1%Q; change (inject_Z 2) with 2%Q; ring). rewrite <- scaled_add. reflexivity. }
  pose proof (N1 _ Gr) as M1. pose proof (N2 _ Gr) as M2. rewrite E2 in M1, M2. unfold max_q in Hs. rewrite Mx in V.
  pose proof (pow_gt0 2 ltac:(lia) 970) as G. set (g := (inject_Z 2 ^ 970)%Q) in *. set (a := scaled 2 (2 ^ 54 - 2) 970) in *.
  rewrite (Qabs_pos (q - scaled 2 m e)) in M1, M2 by lra.
  assert (Ev : Z.even m = true -> (scaled 2 m e < a)%Q).
  { intro Em. destruct (Z.eq_dec e 971) as [->|Ne].
    - assert (m <> 2 ^ 53 - 1) by (intros ->; discriminate). rewrite <- Mx. apply scaled_lt; lia.
    - rewrite <- Mx. apply Qlt_le_trans with (scaled 2 (2 ^ 53) e); [apply scaled_lt; lia|].
      change (2 ^ 53) with (2 ^ 52 * 2 ^ 1) at 1. rewrite scaled_shift by lia. apply Qle_trans with (scaled 2 (2 ^ 52) 971); [|apply scaled_le; lia].
      unfold scaled. pose proof (pow_le 2 ltac:(lia) (1 + e) 971 ltac:(lia)). assert (0 < inject_Z (2 ^ 52))%Q by (unfold Qlt; cbn; lia). nra. }
  revert M1 M2. apply Qabs_case; intros C M1 M2.
  - lra.
  - assert (Eq : (q - scaled 2 m e == - (q - scaled 2 (2 ^ 54) 970))%Q) by lra. destruct (M2 Eq) as [K|K]; [lra|]. specialize (Ev K). lra.
Qed.

(* ---- canonical doubles ---- *)
Lemma canonical m e m' e' : is_double (Fin false m e) -> is_double (Fin false m' e') -> (scaled 2 m e == scaled 2 m' e')%Q -> m = m' /\ e = e'.
Proof.
  assert (A : forall m e m' e', is_double (Fin false m e) -> is_double (Fin false m' e') -> (scaled 2 m e == scaled 2 m' e')%Q -> e <= e' -> m = m' /\ e = e').
  { clear. intros m e m' e' (H1 & H2 & H3) (H1' & H2' & H3') E L. replace e' with ((e' - e) + e) in E by lia. rewrite <- scaled_shift in E by lia.
    assert (Em : m = m' * 2 ^ (e' - e)).
    { destruct (Z.lt_total m (m' * 2 ^ (e' - e))) as [K|[K|K]]; [|exact K|]; apply (scaled_lt 2 _ _ e ltac:(lia)) in K; lra. }
    destruct (Z.eq_dec e e') as [->|Ne]; [rewrite Z.sub_diag, Z.pow_0_r in Em; lia|exfalso].
    assert (H52 : 2 ^ 52 <= m') by lia. assert (2 ^ 1 <= 2 ^ (e' - e)) by (apply Z.pow_le_mono_r; lia). nia. }
  intros D1 D2 E. destruct (Z.le_gt_cases e e') as [L|L]; [now apply A|]. destruct (A m' e' m e D2 D1) as [-> ->]; [now rewrite E|lia|auto].
Qed.

(* the double after, and the grid point before *)
Lemma next_up m e : is_double (Fin false m e) -> e < 971 \/ m + 1 < 2 ^ 53 -> exists d, is_double d /\ finite d /\ (value d == scaled 2 (m + 1) e)%Q /\ mantissa d = (if m + 1 =? 2 ^ 53 then 2 ^ 52 else m + 1).
Proof.
  intros (H1 & H2 & H3) Hx. destruct (Z.eqb_spec (m + 1) (2 ^ 53)) as [E|E].
  - exists (Fin false (2 ^ 52) (e + 1)). cbn [is_double finite value signed mantissa]. split; [lia|]. split; [exact Logic.I|]. split; [|reflexivity].
    rewrite E. change (2 ^ 53) with (2 ^ 52 * 2 ^ 1). rewrite scaled_shift by lia. rewrite Z.add_comm. reflexivity.
  - exists (Fin false (m + 1) e). cbn [is_double finite value signed mantissa]. split; [lia|]. split; [exact Logic.I|]. split; reflexivity.
Qed.
Lemma next_down m e : is_double (Fin false m e) -> 0 < m -> exists d, is_double d /\ finite d /\ (value d == scaled 2 (m - 1) e)%Q.
Proof.
  intros (H1 & H2 & H3) Hm. destruct (Z.le_gt_cases (2 ^ 52) (m - 1)) as [L|L]; [|destruct (Z.eq_dec e (-1074)) as [->|Ne]].
  - exists (Fin false (m - 1) e). cbn [is_double finite value signed]. split; [lia|]. split; [exact Logic.I|reflexivity].
  - exists (Fin false (m - 1) (-1074)). cbn [is_double finite value signed]. split; [lia|]. split; [exact Logic.I|reflexivity].
  - assert (m = 2 ^ 52) as -> by lia. exists (Fin false (2 ^ 53 - 2) (e - 1)). cbn [is_double finite value signed]. split; [lia|]. split; [exact Logic.I|].
    change (2 ^ 53 - 2) with ((2 ^ 52 - 1) * 2 ^ 1). rewrite scaled_shift by lia. replace (1 + (e - 1)) with e by lia. reflexivity.
Qed.

(* flipping the sign of everything *)
Definition flip (s : bool) (d : double) : double := match d with Fin t m e => Fin (xorb s t) m e | Inf t => Inf (xorb s t) | Nan => Nan end.
Lemma flip_double s d : is_double (flip s d) <-> is_double d.
Proof. destruct d; cbn; tauto. Qed.
Lemma flip_finite s d : finite (flip s d) <-> finite d.
Proof. destruct d; cbn; tauto. Qed.
Lemma flip_value s d : (value (flip s d) == signed s (value d))%Q.
Proof. destruct d as [t m e|t|]; cbn [flip value]; destruct s; cbn [signed xorb]; try destruct t; cbn [signed xorb negb]; ring. Qed.
Lemma flip_flip s d : flip s (flip s d) = d.
Proof. destruct d as [t m e|t|]; destruct s; try destruct t; reflexivity. Qed.
Lemma flip_mantissa s d : mantissa (flip s d) = mantissa d.
Proof. destruct d; reflexivity. Qed.
Lemma flip_abs s q d : (Qabs (signed s q - value (flip s d)) == Qabs (q - value d))%Q.
Proof. rewrite flip_value. apply signed_abs. Qed.
Lemma flip_nearest s q d : nearest_double q d -> nearest_double (signed s q) (flip s d).
Proof.
  intros (A & B & C & D). split; [now apply flip_double|]. split; [now apply flip_finite|]. 
  split; intros d' Hd' Hf'; rewrite <- (flip_flip s d'), !flip_abs.
  - apply C; [now apply flip_double|now apply flip_finite].
  - intro E. destruct (D (flip s d')) as [K|K]; [now apply flip_double|now apply flip_finite|exact E|left; rewrite (flip_value s (flip s d')), (flip_value s d); now apply signed_comp|right; now rewrite flip_mantissa].
Qed.
Lemma nearest_comp q q' d : (q == q')%Q -> nearest_double q d -> nearest_double q' d.
Proof.
  intros E (A & B & C & D). split; [exact A|]. split; [exact B|]. split; intros d' H1 H2; rewrite <- !E; [now apply C|now apply D].
Qed.
Lemma zero_double : is_double (Fin false 0 (-1074)) /\ finite (Fin false 0 (-1074)) /\ (value (Fin false 0 (-1074)) == 0)%Q.
Proof. cbn [is_double finite value signed]. split; [lia|]. split; [exact Logic.I|]. unfold scaled. change (inject_Z 0) with 0%Q. ring. Qed.
(* nearest to a positive number: not negative *)
Lemma nearest_nonneg q d : (0 < q)%Q -> nearest_double q d -> (0 <= value d)%Q.
Proof.
  intros Hq (_ & _ & C & _). destruct zero_double as (Z1 & Z2 & Z3). specialize (C _ Z1 Z2). rewrite Z3 in C.
  destruct (Qlt_le_dec (value d) 0) as [L|L]; [exfalso|exact L]. revert C. rewrite (Qabs_pos (q - value d)), (Qabs_pos (q - 0)) by lra. lra.
Qed.
(* two even doubles equally near: the same *)
Lemma no_tie q m e m' e' : is_double (Fin false m e) -> is_double (Fin false m' e') -> Z.even m = true -> Z.even m' = true ->
  (forall d, is_double d -> finite d -> (Qabs (q - scaled 2 m e) <= Qabs (q - value d))%Q) ->
  (scaled 2 m e < scaled 2 m' e')%Q -> (Qabs (q - scaled 2 m e) == Qabs (q - scaled 2 m' e'))%Q -> False.
Proof.
  intros D1 D2 E1 E2 N L T.
  assert (Mid : (2 * q == scaled 2 m e + scaled 2 m' e')%Q). { revert T. apply Qabs_case; apply Qabs_case; intros; lra. }
  assert (Up : (scaled 2 (m + 1) e <= scaled 2 m' e')%Q).
  { destruct (gap 2 53 (Some (-1074)) ltac:(lia) ltac:(lia) m e (scaled 2 m' e')) as [K|K].
    - destruct D1; lia.
    - destruct D1 as (_ & _ & [K|K]); [now left|right; now rewrite K].
    - exists m', e'. destruct D2 as (K1 & K2 & _). split; [lia|]. split; [cbn; lia|reflexivity].
    - fold (scaled 2 m e) in K. lra.
    - exact K. }
  assert (Hx : e < 971 \/ m + 1 < 2 ^ 53).
  { destruct D1 as (A1 & A2 & _). destruct (Z.eq_dec e 971) as [->|Ne]; [right|left; lia].
    destruct (Z.eq_dec (m + 1) (2 ^ 53)) as [K|K]; [|lia]. assert (m = 2 ^ 53 - 1) as -> by lia. discriminate. }
  destruct (next_up m e D1 Hx) as (d & Dd & Fd & Vd & Md).
  assert (A1 : (scaled 2 (m + 1) e == scaled 2 m e + scaled 2 1 e)%Q) by apply scaled_add. pose proof (scaled_pos 2 1 e ltac:(lia) ltac:(lia)) as A2.
  destruct (Qlt_le_dec (scaled 2 (m + 1) e) (scaled 2 m' e')) as [K|K].
  - specialize (N d Dd Fd). rewrite Vd in N. revert N. rewrite (Qabs_pos (q - scaled 2 m e)) by lra. apply Qabs_case; intros; lra.
  - assert (Ev : (scaled 2 (m + 1) e == scaled 2 m' e')%Q) by lra.
    destruct d as [t md ed| |]; try contradiction. cbn [mantissa] in Md. cbn [value] in Vd.
    destruct t; cbn [signed] in Vd.
    + pose proof (scaled_nonneg 2 md ed ltac:(lia) ltac:(destruct Dd; lia)). pose proof (scaled_nonneg 2 m e ltac:(lia) ltac:(destruct D1; lia)). lra.
    + destruct (canonical md ed m' e' Dd D2) as [K1 _]; [rewrite Vd; exact Ev|]. subst m'. destruct (Z.eqb_spec (m + 1) (2 ^ 53)) as [F|F].
      * assert (m = 2 ^ 53 - 1) as -> by lia. discriminate.
      * rewrite Md in E2. rewrite Z.even_add, E1 in E2. discriminate.
Qed.

Lemma nearest_unique q d d' : nearest_double q d -> nearest_double q d' -> ~ (value d == 0)%Q -> d = d'.
Proof.
  assert (P : forall q d d', (0 < q)%Q -> nearest_double q d -> nearest_double q d' -> ~ (value d == 0)%Q -> d = d').
  { clear. intros q d d' Hq H H' Hz. pose proof (nearest_nonneg q d Hq H) as V. pose proof (nearest_nonneg q d' Hq H') as V'.
    destruct H as (Dd & Fd & N & T). destruct H' as (Dd' & Fd' & N' & T').
    assert (E : (Qabs (q - value d) == Qabs (q - value d'))%Q) by (apply Qle_antisym; auto).
    destruct d as [s m e| |]; try contradiction. destruct d' as [s' m' e'| |]; try contradiction. cbn [value mantissa] in *.
    pose proof (scaled_nonneg 2 m e ltac:(lia) ltac:(destruct Dd; lia)) as G. pose proof (scaled_nonneg 2 m' e' ltac:(lia) ltac:(destruct Dd'; lia)) as G'.
    destruct s; cbn [signed] in *; [exfalso; apply Hz; lra|].
    assert (Is : is_double (Fin false m' e')) by exact Dd'.
    (* the other one is not zero either *)
    assert (Hz' : ~ (scaled 2 m' e' == 0)%Q).
    { intro Z0. destruct (T (Fin s' m' e') Dd' Logic.I) as [K|K]; [exact E| |].
      - cbn [value] in K. apply Hz. rewrite <- K. destruct s'; cbn [signed]; rewrite Z0; ring.
      - apply (no_tie q 0 (-1074) m e); auto; try (cbn [is_double]; lia).
        + intros d0 D0 F0. assert ((scaled 2 0 (-1074) == signed s' (scaled 2 m' e'))%Q) as ->; [|now apply N'].
          destruct s'; cbn [signed]; rewrite Z0; unfold scaled; change (inject_Z 0) with 0%Q; ring.
        + assert ((scaled 2 0 (-1074) == 0)%Q) as -> by (unfold scaled; change (inject_Z 0) with 0%Q; ring). lra.
        + assert ((scaled 2 0 (-1074) == signed s' (scaled 2 m' e'))%Q) as ->; [|now rewrite E].
          destruct s'; cbn [signed]; rewrite Z0; unfold scaled; change (inject_Z 0) with 0%Q; ring. }
    destruct s'; cbn [signed] in *; [exfalso; apply Hz'; lra|].
    destruct (Qeq_dec (scaled 2 m e) (scaled 2 m' e')) as [K|K]; [destruct (canonical m e m' e' Dd Dd' K) as [-> ->]; reflexivity|exfalso].
    destruct (T (Fin false m' e') Dd' Logic.I E) as [F|F]; [cbn [value signed] in F; apply K; now rewrite F|].
    destruct (T' (Fin false m e) Dd Logic.I) as [F'|F']; [symmetry; exact E|cbn [value signed] in F'; now apply K|].
    destruct (Qlt_le_dec (scaled 2 m e) (scaled 2 m' e')) as [L|L].
    - exact (no_tie q m e m' e' Dd Dd' F F' N L E).
    - apply (no_tie q m' e' m e Dd' Dd F' F N'); [|symmetry; exact E]. apply Qle_lteq in L as [L|L]; [exact L|]. exfalso. apply K. now rewrite L. }
  intros H H' Hz. destruct (Q_dec q 0) as [[L|L]|L].
  - rewrite <- (flip_flip true d), <- (flip_flip true d'). f_equal. apply (P (signed true q)); [cbn; lra|now apply flip_nearest|now apply flip_nearest|].
    rewrite flip_value. cbn [signed]. lra.
  - now apply (P q).
  - exfalso. destruct H as (_ & _ & N & _). destruct zero_double as (Z1 & Z2 & Z3). specialize (N _ Z1 Z2). rewrite Z3, L in N.
    apply Hz. revert N. rewrite (Qabs_pos (0 - 0)) by lra. apply Qabs_case; intros; lra.
Qed.

(* ---- decimals ---- *)
Lemma rnd_decimal x D k : (0 < x)%Q -> rnd 10 12 None x = (D, k) -> 10 ^ 11 <= D < 10 ^ 12 /\ forall s, nearest_decimal 12 (signed s x) (signed s (scaled 10 D k)).
Proof.
  intros Hx Hr. destruct (rnd_spec 10 12 None ltac:(lia) ltac:(lia) eq_refl x D k Hx Hr) as (Hm & Ha & Hn & N1 & N2 & _).
  assert (HD : 10 ^ 11 <= D) by (destruct Hn as [Hn|Hn]; [exact Hn|discriminate]). split; [lia|]. intro s.
  assert (A : forall q', (Qabs (signed s x - q') == Qabs (x - signed s q'))%Q).
  { intro q'. rewrite <- (signed_abs s x (signed s q')). destruct s; cbn [signed]; [|reflexivity]. setoid_replace (- - q')%Q with q' by ring. reflexivity. }
  split; [apply decimal_signed; exists D, k; split; [lia|reflexivity]|]. split; intros q' Hq'; rewrite signed_abs, A.
  - apply N1, decimal_grid. now apply decimal_signed.
  - intro E. destruct (N2 (signed s q')) as [K|K]; [apply decimal_grid; now apply decimal_signed|exact E| |].
    + left. rewrite <- (signed_signed s q'). now apply signed_comp.
    + right. exists (if s then - D else D), k. split; [destruct s; lia|]. split; [destruct s; rewrite ?Z.even_opp; exact K|]. destruct s; cbn [signed]; [now rewrite scaled_opp|reflexivity].
Qed.

(* decimals with twelve digits keep their distance *)
Lemma decimal_apart D k q : 10 ^ 11 <= D < 10 ^ 12 -> decimal 12 q -> ~ (q == scaled 10 D k)%Q -> (scaled 10 D k <= inject_Z (10 ^ 12) * Qabs (scaled 10 D k - q))%Q.
Proof.
  intros HD Hq Hne. apply decimal_grid in Hq.
  assert (G : forall m e, 0 <= m -> 10 ^ 11 <= m -> (q <= scaled 10 m e)%Q \/ (scaled 10 (m + 1) e <= q)%Q).
  { intros m e H1 H2. apply (gap 10 12 None ltac:(lia) ltac:(lia) m e q H1); [now left|exact Hq]. }
  pose proof (scaled_pos 10 1 k ltac:(lia) ltac:(lia)) as P1.
  assert (Bd : (scaled 10 D k <= inject_Z (10 ^ 12) * scaled 10 1 k)%Q).
  { apply Qle_trans with (scaled 10 (10 ^ 12) k); [apply scaled_le; lia|]. unfold scaled. change (inject_Z 1) with 1%Q. lra. }
  assert (T : (0 < inject_Z (10 ^ 12))%Q) by (unfold Qlt; cbn; lia).
  destruct (G D k ltac:(lia) ltac:(lia)) as [K|K].
  - assert (L : (q < scaled 10 D k)%Q) by (apply Qle_lteq in K as [K|K]; [exact K|contradiction]).
    rewrite Qabs_pos by lra.
    destruct (Z.eq_dec D (10 ^ 11)) as [->|Ne].
    + destruct (G (10 ^ 12 - 1) (k - 1) ltac:(lia) ltac:(lia)) as [K2|K2].
      * assert (E : (scaled 10 (10 ^ 11) k == scaled 10 (10 ^ 12 - 1) (k - 1) + scaled 10 1 (k - 1))%Q).
        { rewrite <- scaled_add. change (10 ^ 12 - 1 + 1) with (10 ^ 11 * 10 ^ 1). rewrite scaled_shift by lia. replace (1 + (k - 1)) with k by lia. reflexivity. }
        assert (E2 : (scaled 10 (10 ^ 11) k == inject_Z (10 ^ 12) * scaled 10 1 (k - 1))%Q).
        { replace k with (1 + (k - 1)) at 1 by lia. rewrite <- scaled_shift by lia. change (10 ^ 11 * 10 ^ 1) with (10 ^ 12). unfold scaled. change (inject_Z 1) with 1%Q. ring. }
        rewrite E2 at 1. nra.
      * exfalso. change (10 ^ 12 - 1 + 1) with (10 ^ 11 * 10 ^ 1) in K2. rewrite scaled_shift in K2 by lia. replace (1 + (k - 1)) with k in K2 by lia. lra.
    + destruct (G (D - 1) k ltac:(lia) ltac:(lia)) as [K2|K2].
      * assert (E : (scaled 10 D k == scaled 10 (D - 1) k + scaled 10 1 k)%Q) by (rewrite <- scaled_add; replace (D - 1 + 1) with D by lia; reflexivity). nra.
      * replace (D - 1 + 1) with D in K2 by lia. lra.
  - assert (E : (scaled 10 (D + 1) k == scaled 10 D k + scaled 10 1 k)%Q) by apply scaled_add. rewrite Qabs_neg by lra. nra.
Qed.

(* a normal double nearest to a decimal with twelve digits is printed as that decimal *)
Lemma twelve_digits s m e q D k : is_double (Fin s m e) -> 2 ^ 52 <= m -> decimal 12 q -> small q -> 
  (forall d, is_double d -> finite d -> (Qabs (q - value (Fin s m e)) <= Qabs (q - value d))%Q) ->
  rnd 10 12 None (scaled 2 m e) = (D, k) -> (q == signed s (scaled 10 D k))%Q.
Proof.
  intros Hd Hm Hq Hs N Hr. set (x := scaled 2 m e) in *. set (q' := signed s q).
  assert (D0 : is_double (Fin false m e)) by exact Hd. assert (Hx : (0 < x)%Q) by (apply scaled_pos; lia).
  destruct (rnd_decimal x D k Hx Hr) as (HD & ND). specialize (ND false). destruct ND as (_ & ND & _). cbn [signed] in ND.
  assert (Hq' : decimal 12 q') by now apply decimal_signed.
  assert (N' : forall d, is_double d -> finite d -> (Qabs (q' - x) <= Qabs (q' - value d))%Q).
  { intros d Dd Fd. specialize (N (flip s d) ltac:(now apply flip_double) ltac:(now apply flip_finite)). cbn [value] in N. fold x in N.
    unfold q'. rewrite !signed_move, <- flip_value. exact N. }
  pose proof (scaled_pos 2 1 e ltac:(lia) ltac:(lia)) as P1.
  assert (Xm : (inject_Z (2 ^ 52) * scaled 2 1 e <= x)%Q).
  { apply Qle_trans with (scaled 2 (2 ^ 52) e); [unfold scaled; change (inject_Z 1) with 1%Q; lra|]. apply scaled_le; lia. }
  assert (Near : (2 * Qabs (q' - x) <= scaled 2 1 e)%Q).
  { destruct (Qlt_le_dec q' x) as [L|L].
    - destruct (next_down m e D0 ltac:(lia)) as (d & Dd & Fd & Vd). specialize (N' d Dd Fd). rewrite Vd in N'.
      assert (E : (x == scaled 2 (m - 1) e + scaled 2 1 e)%Q) by (unfold x; rewrite <- scaled_add; replace (m - 1 + 1) with m by lia; reflexivity).
      revert N'. rewrite (Qabs_neg (q' - x)) by lra. apply Qabs_case; intros; lra.
    - assert (E : (scaled 2 (m + 1) e == x + scaled 2 1 e)%Q) by apply scaled_add.
      destruct (Z_lt_dec e 971) as [Le|Le]; [|destruct (Z_lt_dec (m + 1) (2 ^ 53)) as [Lm|Lm]].
      1,2: destruct (next_up m e D0 ltac:(tauto)) as (d & Dd & Fd & Vd & _); specialize (N' d Dd Fd); rewrite Vd in N';
        revert N'; rewrite (Qabs_pos (q' - x)) by lra; apply Qabs_case; intros; lra.
      assert (e = 971 /\ m = 2 ^ 53 - 1) as [-> ->] by (destruct D0 as (? & ? & _); lia).
      assert (S : (q' < max_q)%Q). { unfold small in Hs. eapply Qle_lt_trans; [apply Qle_Qabs|]. unfold q'. rewrite abs_signed. exact Hs. }
      assert (Mx : (x == scaled 2 (2 ^ 54 - 2) 970)%Q).
      { unfold x. change (2 ^ 54 - 2) with ((2 ^ 53 - 1) * 2 ^ 1). rewrite scaled_shift by lia. reflexivity. }
      assert (T1 : (max_q == x + scaled 2 1 970)%Q) by (rewrite Mx; unfold max_q; rewrite <- scaled_add; reflexivity).
      assert (T2 : (scaled 2 1 971 == 2 * scaled 2 1 970)%Q).
      { change 971 with (1 + 970). rewrite <- scaled_shift by lia. unfold scaled. change (inject_Z 1) with 1%Q. change (inject_Z (1 * 2 ^ 1)) with 2%Q. ring. }
      rewrite (Qabs_pos (q' - x)) by lra. lra. }
  assert (Eq : (q' == scaled 10 D k)%Q).
  { destruct (Qeq_dec q' (scaled 10 D k)) as [E|E]; [exact E|exfalso]. set (v := scaled 10 D k) in *.
    pose proof (decimal_apart D k q' HD Hq' E) as Ap. fold v in Ap. specialize (ND q' Hq'). fold v in ND.
    assert (A1 : (Qabs (x - q') == Qabs (q' - x))%Q) by (rewrite Qabs_Qminus; reflexivity). rewrite A1 in ND.
    assert (Tri : (Qabs (v - q') <= Qabs (x - v) + Qabs (q' - x))%Q).
    { rewrite (Qabs_Qminus x v). setoid_replace (v - q')%Q with ((v - x) + (x - q'))%Q by ring. eapply Qle_trans; [apply Qabs_triangle|]. rewrite A1. apply Qle_refl. }
    assert (Vx : (x - Qabs (x - v) <= v)%Q). { apply Qabs_case; intros; lra. }
    assert (C52 : (inject_Z (2 ^ 52) == 4503599627370496)%Q) by reflexivity. assert (C12 : (inject_Z (10 ^ 12) == 1000000000000)%Q) by reflexivity.
    rewrite C52 in Xm. rewrite C12 in Ap. set (h := Qabs (q' - x)) in *. set (a := Qabs (x - v)) in *. set (c := Qabs (v - q')) in *. lra. }
  unfold q' in Eq. rewrite <- (signed_signed s q). now apply signed_comp.
Qed.
