(* ProofJsonL3.v - proofs: reading with lifetimes follows reading without. *)
From Verif Require Import Base Dec ModelJson ModelJsonW ModelJsonT ModelJsonH ProofJsonH1 ProofUMap ModelJsonL SpecJsonL ProofJsonL1 ProofJsonL2.
From Coq Require Import Lia.
Local Open Scope nat_scope.
Local Open Scope outcome_scope.

(* ---- the same objects ---- *)
Lemma agree_less m' m mh : less m' m -> length m' = length m -> agree m mh -> agree m' mh.
Proof. intros L E [A1 A2]. split; [congruence|]. intros a h Ha. apply A2. now apply L. Qed.
Lemma dropped_agree ext h m mh : agree m mh -> agree (dropped ext h m) mh.
Proof. intro A. unfold dropped. destruct (release_less ext (length (owned h) + length (all_owned m)) (owned h) m). eapply agree_less; eauto. Qed.
Lemma agree_put m mh a h h' : agree m mh -> a < length m -> h' = erase h -> agree (put m a (Some h)) (put_cell mh a h').
Proof.
  intros [A1 A2] La ->. split; [now rewrite put_length, put_cell_length|]. intros b x E. apply put_cases in E as [[-> Q]|[N Q]].
  - injection Q as ->. apply put_cell_same. lia.
  - rewrite put_cell_other by auto. now apply A2.
Qed.
Lemma agree_kill m mh a h' : agree m mh -> agree (put m a None) (put_cell mh a h').
Proof.
  intros [A1 A2]. split; [now rewrite put_length, put_cell_length|]. intros b x E. apply put_cases in E as [[-> Q]|[N Q]]; [discriminate|].
  rewrite put_cell_other by auto. now apply A2.
Qed.
Lemma agree_cell m mh a h : agree m mh -> nth_error m a = Some (Some h) -> cell mh a = erase h.
Proof. intros [_ A] E. apply nth_cell. now apply A. Qed.
Lemma agree_lget m mh a p h : agree m mh -> nth_error m a = Some (Some h) -> lget mh (a, p) = erase (vget h p).
Proof. intros A E. unfold lget. cbn [fst snd]. rewrite (agree_cell _ _ _ _ A E). symmetry. apply erase_get. Qed.
Lemma agree_lset m mh a p h x y : agree m mh -> nth_error m a = Some (Some h) -> y = erase x ->
  agree (put m a (Some (vset h p x))) (lset mh (a, p) y).
Proof.
  intros A E ->. unfold lset. cbn [fst snd]. apply agree_put; [auto|eapply nth_some_lt; eauto|].
  rewrite (agree_cell _ _ _ _ A E). symmetry. apply erase_set.
Qed.
Lemma agree_app m mh n : agree m mh -> agree (m ++ map Some n) (mh ++ map erase n).
Proof.
  intros [A1 A2]. split; [rewrite !app_length, !map_length; lia|]. intros a h E. apply nth_new in E as [[L E]|[L E]].
  - rewrite nth_error_app1 by lia. now apply A2.
  - rewrite nth_error_app2 by lia. rewrite A1, nth_error_map, E. reflexivity.
Qed.

Section Main.
Variables (ext : list nat) (e : env).
Local Notation region := (region ext).
Local Notation frame := (frame ext).

Definition both (B : nat -> Prop) (a : nat) (m0 m : lstore) (mh : store) : Prop := frame B a m0 m /\ agree m mh.
Definition same_end (B : nat -> Prop) (a : nat) (m0 : lstore) (x : lstore * bool * reader) (y : store * bool * reader) : Prop :=
  both B a m0 (fst (fst x)) (fst (fst y)) /\ snd (fst x) = snd (fst y) /\ snd x = snd y.

Lemma write_sim B a m0 m mh p x y {C D} (S : C -> D -> Prop) (f : lstore -> outcome C) (g : store -> outcome D) :
  region B a m0 -> both B a m0 m mh -> ptrs x = [] -> y = erase x ->
  (forall m1, both B a m0 m1 (lset mh (a, p) y) -> orel S (f m1) (g (lset mh (a, p) y))) ->
  orel S (bind (write ext m (a, p) x) f) (g (lset mh (a, p) y)).
Proof.
  intros R [F A] X Y K. destruct (fr_live _ _ _ _ _ F) as [h E]. unfold write. cbn [fst snd]. rewrite E. cbn [bind]. apply K. split.
  - apply write_plain; auto.
  - apply dropped_agree. now apply agree_lset.
Qed.

(* an object made, read into, and left alone by everybody else *)
Lemma fresh_sim B a m0 m mh i f r :
  (forall B a m0 m mh p r, region B a m0 -> both B a m0 m mh -> orel (same_end B a m0) (parse_l ext f e i (a, p) m r) (parse_h f e i (a, p) mh r)) ->
  region B a m0 -> both B a m0 m mh ->
  forall {C D} (S : C -> D -> Prop) (fn : nat -> lstore -> bool -> reader -> outcome C) (gn : nat -> store -> bool -> reader -> outcome D),
  (forall c m2 mh2 mv r2 y, both B a m0 m2 mh2 -> length m0 <= c -> nth_error m2 c = Some (Some y) -> (forall k, ~ pointer m2 k c) -> chains_end m2 c ->
     orel S (fn c m2 mv r2) (gn c mh2 mv r2)) ->
  orel S (let (c, m1) := lnew e i m in do (m2, mv, r2) <- parse_l ext f e i (c, []) m1 r; fn c m2 mv r2)
         (let (c, m1) := new_object e i mh in do (m2, mv, r2) <- parse_h f e i (c, []) m1 r; gn c m2 mv r2).
Proof.
  intros IH R [F A] C D S fn gn K. destruct (lnew_spec e i m) as (n & E & Ln & Y & Eh). rewrite E, (Eh mh (proj1 A)).
  destruct (new_region ext m n (fr_nd _ _ _ _ _ F) (fr_ap _ _ _ _ _ F) Ln Y) as (R1 & Nc & _).
  set (c := length m + length n - 1) in *. pose proof (fr_len _ _ _ _ _ F) as L1.
  apply (orel_bind (same_end (fun z => length m <= z < c) c (m ++ map Some n))).
  - apply IH; [exact R1|]. split; [now apply frame_refl|now apply agree_app].
  - intros [[m2 mv] r2] [[mh2 mv'] r2'] [[F2 A2] [E1 E2]]. cbn [fst snd] in *. subst mv' r2'.
    destruct (fr_live _ _ _ _ _ F2) as [y Ey].
    assert (F3 : frame B a m0 m2).
    { eapply sub_frame; [exact R|apply new_frame; eauto| |exact F2]. intros z [->|Hz]; right; lia. }
    apply (K c m2 mh2 mv r2 y); auto.
    + split; auto.
    + lia.
    + eapply alone; eauto.
    + apply (fr_new _ _ _ _ _ F3). lia.
Qed.

Lemma main : forall f t B a m0 m mh p r, region B a m0 -> both B a m0 m mh ->
  orel (same_end B a m0) (parse_l ext f e t (a, p) m r) (parse_h f e t (a, p) mh r).
Proof.
  induction f as [|f IH]; intros t B a m0 m mh p r R BT; [exact Logic.I|]. cbn [parse_l parse_h].
  destruct (nth_error e t) as [d|]; [|exact Logic.I]. destruct d as [|is64|dbl| |smart i|i|i| |fs ini].
  - apply orel_same. intros [b r1] _. apply (write_sim B a m0 m mh p _ _ _ _ (fun y => Ok (y, false, r1))); auto.
    intros m1 H1. split; auto.
  - apply orel_same. intros [z r1] _. destruct is64; [|exact Logic.I].
    apply (write_sim B a m0 m mh p _ _ _ _ (fun y => Ok (y, false, r1))); auto. intros m1 H1. split; auto.
  - apply orel_same. intros [z r1] _. destruct dbl; [|exact Logic.I].
    apply (write_sim B a m0 m mh p _ _ _ _ (fun y => Ok (y, false, r1))); auto. intros m1 H1. split; auto.
  - apply orel_same. intros [z r1] _.
    apply (write_sim B a m0 m mh p _ _ _ _ (fun y => Ok (y, false, r1))); auto. intros m1 H1. split; auto.
  - apply orel_same. intros [tk r1] _. destruct (same_type tk TNull).
    + apply orel_same. intros [t2 r2] _. destruct smart; [|split; auto].
      apply (write_sim B a m0 m mh p _ _ _ _ (fun y => Ok (y, negb true, r2))); auto. intros m1 H1. split; auto.
    + destruct BT as [F A]. destruct (fr_live _ _ _ _ _ F) as [h E]. unfold look at 1. cbn [fst snd]. rewrite E. cbn [bind].
      rewrite (agree_lget _ _ _ p _ A E).
      assert (Fresh : orel (same_end B a m0)
        (let (a0, m1) := lnew e i m in do (m2, _, r2) <- parse_l ext f e i (a0, []) m1 r1; do m3 <- write ext m2 (a, p) (LP smart (Some a0)); Ok (m3, false, r2))
        (let (a0, m1) := new_object e i mh in do (m2, _, r2) <- parse_h f e i (a0, []) m1 r1; Ok (lset m2 (a, p) (HP (Some a0)), false, r2))).
      { apply (fresh_sim B a m0 m mh i f r1 (fun B a m0 m mh p r => IH i B a m0 m mh p r) R (conj F A) (same_end B a m0)
          (fun a0 m2 _ r2 => do m3 <- write ext m2 (a, p) (LP smart (Some a0)); Ok (m3, false, r2))
          (fun a0 m2 _ r2 => Ok (lset m2 (a, p) (HP (Some a0)), false, r2))).
        intros c m2 mh2 mv r2 y [F2 A2] Gc Ey Nc Ac. destruct (fr_live _ _ _ _ _ F2) as [h2 E2].
        unfold write. cbn [fst snd]. rewrite E2. cbn [bind]. split; [|auto]. cbn [fst snd]. split.
        - apply write_pointer; auto. now exists y.
        - apply dropped_agree. now apply agree_lset. }
      assert (Inh : forall k b, In (k, b) (ptrs (vget h p)) -> In (k, b) (ptrs h)) by (intros; eapply ptrs_lget; eauto).
      destruct (vget h p) as [v|k [b|]|l|l|l]; cbn [erase]; try exact Fresh.
      assert (Ib : In (k, b) (ptrs h)) by (apply Inh; now left).
      destruct (below_region ext B a m0 m h k b R F E Ib) as [R1 S1].
      destruct R1 as (N1 & N2 & Lb & N3). destruct Lb as [hb Eb]. unfold look. cbn [fst snd]. rewrite Eb. cbn [bind].
      assert (R1 : region (below m b) b m) by (split; [auto|split; [auto|split; [now exists hb|auto]]]).
      apply (orel_bind (same_end (below m b) b m)).
      * apply IH; [exact R1|]. split; [now apply frame_refl|auto].
      * intros [[m2 mv] r2] [[mh2 mv'] r2'] [[F2 A2] [E1 E2]]. cbn [fst snd] in *. subst mv' r2'. split; [|auto]. cbn [fst snd]. split; [|auto].
        eapply sub_frame; eauto.
  - apply (orel_bind (steps (both B a m0))).
    + apply parse_object_sim; [|auto]. clear m mh r BT. intros k m mh r BT.
      apply (fresh_sim B a m0 m mh i f r (fun B a m0 m mh p r => IH i B a m0 m mh p r) R BT (steps (both B a m0))
        (fun c m2 moved r' => do x <- look m2 (c, []); let m3 := put m2 c None in
           if rok r' then if moved then Abort else do h <- look m3 (a, p); do m4 <- write ext m3 (a, p) (LM (lmap_set k x (lpairs h))); Ok (m4, r')
           else Ok (dropped ext x m3, r'))
        (fun c m2 moved r' => let x := cell m2 c in let m3 := put_cell m2 c (HV VVoid) in
           if rok r' then (if moved then Abort else Ok (lset m3 (a, p) (HM (hmap_set k x (hpairs (lget m3 (a, p))))), r')) else Ok (m3, r'))).
      intros c m2 mh2 mv r2 y [F2 A2] Gc Ey Nc Ac. destruct (fr_live _ _ _ _ _ F2) as [h2 E2].
      assert (La : a < length m0) by (apply live_lt; apply R).
      assert (E3 : nth_error (put m2 c None) a = Some (Some h2)) by (rewrite put_other; [auto|lia]).
      unfold look at 1. cbn [fst snd]. rewrite Ey. cbn [bind vget]. cbv zeta. pose proof (agree_kill m2 mh2 c (HV VVoid) A2) as A3.
      rewrite (agree_cell _ _ _ _ A2 Ey). destruct (rok r2).
      * destruct mv; [exact Logic.I|]. unfold look, write. cbn [fst snd]. rewrite E3. cbn [bind]. split; [|auto]. cbn [fst snd]. split.
        -- eapply write_moved; eauto. intros k0 z I1. apply ptrs_assign in I1 as [I1|I1]; [left; eapply ptrs_lget; eauto|auto].
        -- apply dropped_agree. apply agree_lset; auto. rewrite (agree_lget _ _ _ _ _ A3 E3), erase_pairs. cbn [erase]. now rewrite erase_map_set.
      * split; [|auto]. cbn [fst snd]. split; [eapply drop_moved; eauto|now apply dropped_agree].
    + intros [m' r1] [mh' r1'] [BT' E]. cbn [fst snd] in *. subst r1'. split; auto.
  - apply (orel_bind (steps (both B a m0))).
    + apply parse_array_sim; [|auto]. clear m mh r BT. intros k m mh r BT.
      apply (fresh_sim B a m0 m mh i f r (fun B a m0 m mh p r => IH i B a m0 m mh p r) R BT (steps (both B a m0))
        (fun c m2 moved r' => do x <- look m2 (c, []); let m3 := put m2 c None in
           if rok r' then if moved then Abort else do h <- look m3 (a, p); do m4 <- write ext m3 (a, p) (LL (llist h ++ [x])); Ok (m4, r')
           else Ok (dropped ext x m3, r'))
        (fun c m2 moved r' => let x := cell m2 c in let m3 := put_cell m2 c (HV VVoid) in
           if rok r' then (if moved then Abort else Ok (lset m3 (a, p) (HL (hlist (lget m3 (a, p)) ++ [x])), r')) else Ok (m3, r'))).
      intros c m2 mh2 mv r2 y [F2 A2] Gc Ey Nc Ac. destruct (fr_live _ _ _ _ _ F2) as [h2 E2].
      assert (La : a < length m0) by (apply live_lt; apply R).
      assert (E3 : nth_error (put m2 c None) a = Some (Some h2)) by (rewrite put_other; [auto|lia]).
      unfold look at 1. cbn [fst snd]. rewrite Ey. cbn [bind vget]. cbv zeta. pose proof (agree_kill m2 mh2 c (HV VVoid) A2) as A3.
      rewrite (agree_cell _ _ _ _ A2 Ey). destruct (rok r2).
      * destruct mv; [exact Logic.I|]. unfold look, write. cbn [fst snd]. rewrite E3. cbn [bind]. split; [|auto]. cbn [fst snd]. split.
        -- eapply write_moved; eauto. intros k0 z I1. apply ptrs_push in I1 as [I1|I1]; [left; eapply ptrs_lget; eauto|auto].
        -- apply dropped_agree. apply agree_lset; auto. rewrite (agree_lget _ _ _ _ _ A3 E3), erase_list. cbn [erase]. now rewrite map_app.
      * split; [|auto]. cbn [fst snd]. split; [eapply drop_moved; eauto|now apply dropped_agree].
    + intros [m' r1] [mh' r1'] [BT' E]. cbn [fst snd] in *. subst r1'. split; auto.
  - apply orel_same. intros [x r1] _. apply orel_same. intros [tk r2] _. destruct (assigns tk); [|split; auto].
    apply (write_sim B a m0 m mh p _ _ _ _ (fun y => Ok (y, false, r1))); auto. intros m1 H1. split; auto.
  - apply (orel_bind (steps (both B a m0))).
    + apply parse_object_sim; [|auto]. clear m mh r BT. intros k m mh r BT. destruct (find_alias fs k) as [fd|].
      * cbn [fst snd]. apply (orel_bind (same_end B a m0)); [now apply IH|].
        intros [[m2 mv] r2] [[mh2 mv'] r2'] [BT2 [E1 E2]]. cbn [fst snd] in *. subst mv' r2'. split; auto.
      * apply orel_same. intros r' _. split; auto.
    + intros [m' r1] [mh' r1'] [BT' E]. cbn [fst snd] in *. subst r1'. split; auto.
Qed.
End Main.

Lemma start_region ext m a : no_dangling m -> apart ext m -> live m a -> chains_end m a -> region ext (below m a) a m.
Proof.
  intros Nd Ap Lv Ch. split; [auto|]. split; [auto|]. split; [auto|]. split; [auto|]. split; [now apply below_irrefl|]. split.
  - intros y z [->|(u & Pu & Ru)] P; [exists z; split; [auto|constructor]|exists u; split; [auto|econstructor; eauto]].
  - intros x (y & P & Rx). assert (Lx : exists k', pointer m k' x).
    { destruct Rx as [|u v Ru Pu]; [exact (points_pointer _ _ _ P)|exact (points_pointer _ _ _ Pu)]. }
    destruct Lx as [k' Pk]. apply live_lt. eapply Nd; eauto.
Qed.
Lemma reached_live m x y : no_dangling m -> live m x -> reached m x y -> live m y.
Proof. intros Nd Lx R. induction R as [|u v R IH P]; [auto|]. destruct (points_pointer _ _ _ P) as [k Pk]. eapply Nd; eauto. Qed.
Lemma below_reached m a x : below m a x -> reached m a x.
Proof. intros (z & P & Rz). induction Rz; [econstructor; [constructor|eauto]|econstructor; eauto]. Qed.
Lemma agree_exists m : exists mh, agree m mh.
Proof.
  exists (map (fun c => match c with Some h => erase h | None => HV VVoid end) m). split; [apply map_length|].
  intros a h E. now rewrite nth_error_map, E.
Qed.
