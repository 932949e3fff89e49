(* ProofUMap.v - reading into maps of any iteration order *)
From Coq Require String. Import String.StringSyntax.
From Verif Require Import Base Dec ModelJson ModelJsonW ModelJsonT SpecJson SpecJsonT ProofJsonT1 ProofJsonT2 ProofJsonT5 ModelUMap SpecUMap.
Local Open Scope outcome_scope.

(* ---- outcomes ---- *)
Definition orel {A B} (R : A -> B -> Prop) (x : outcome A) (y : outcome B) : Prop :=
  match x, y with
  | Ok a, Ok b => R a b
  | Abort, Abort | Throw, Throw | UB, UB | OutOfFuel, OutOfFuel => True
  | _, _ => False
  end.
Lemma orel_bind {A B C D} (R : A -> B -> Prop) (S : C -> D -> Prop) x y f g :
  orel R x y -> (forall a b, R a b -> orel S (f a) (g b)) -> orel S (bind x f) (bind y g).
Proof. destruct x, y; cbn; intros H K; try contradiction; auto. Qed.
Lemma orel_refl {A} (x : outcome A) : orel eq x x.
Proof. destruct x; cbn; auto. Qed.
Lemma orel_same {A C D} (S : C -> D -> Prop) (x : outcome A) f g :
  (forall a, x = Ok a -> orel S (f a) (g a)) -> orel S (bind x f) (bind x g).
Proof. destruct x; cbn; auto. Qed.

Definition steps {A B} (R : A -> B -> Prop) (x : A * reader) (y : B * reader) : Prop := R (fst x) (fst y) /\ snd x = snd y.
Section Loops.
Context {A B : Type} (R : A -> B -> Prop).
Lemma object_loop_sim (fn : str -> A -> reader -> outcome (A * reader)) (gn : str -> B -> reader -> outcome (B * reader)) :
  (forall k s s' r, R s s' -> orel (steps R) (fn k s r) (gn k s' r)) ->
  forall fuel s s' r, R s s' -> orel (steps R) (object_loop fuel fn s r) (object_loop fuel gn s' r).
Proof.
  intros H. induction fuel as [|f IH]; intros s s' r Hs; cbn [object_loop]; [exact Logic.I|].
  destruct (rok r); [|split; auto]. apply orel_same. intros [t r1] _. apply orel_same. intros x _. apply orel_same. intros [t2 r2] _.
  apply (orel_bind (steps R)); [now apply H|]. intros [s1 r3] [s1' r3'] [H1 H2]. cbn [fst snd] in *. subst r3'.
  apply orel_same. intros [t3 r4] _. destruct (same_type t3 TObjE); [split; auto|]. now apply IH.
Qed.
Lemma parse_object_sim fn gn fuel s s' r : (forall k s s' r, R s s' -> orel (steps R) (fn k s r) (gn k s' r)) ->
  R s s' -> orel (steps R) (parse_object fuel fn s r) (parse_object fuel gn s' r).
Proof.
  intros H Hs. unfold parse_object. apply orel_same. intros [t r1] _. destruct (same_type t TNull); [split; auto|].
  apply orel_same. intros [t2 r2] _. destruct (same_type t2 TObjE); [|now apply object_loop_sim].
  apply orel_same. intros [t3 r3] _. split; auto.
Qed.
Lemma array_loop_sim (fn : nat -> A -> reader -> outcome (A * reader)) (gn : nat -> B -> reader -> outcome (B * reader)) :
  (forall k s s' r, R s s' -> orel (steps R) (fn k s r) (gn k s' r)) ->
  forall fuel i s s' r, R s s' -> orel (steps R) (array_loop fuel fn i s r) (array_loop fuel gn i s' r).
Proof.
  intros H. induction fuel as [|f IH]; intros i s s' r Hs; cbn [array_loop]; [exact Logic.I|].
  destruct (rok r); [|split; auto].
  apply (orel_bind (steps R)); [now apply H|]. intros [s1 r3] [s1' r3'] [H1 H2]. cbn [fst snd] in *. subst r3'.
  apply orel_same. intros [t3 r4] _. destruct (same_type t3 TArrE); [split; auto|]. now apply IH.
Qed.
Lemma parse_array_sim fn gn fuel s s' r : (forall k s s' r, R s s' -> orel (steps R) (fn k s r) (gn k s' r)) ->
  R s s' -> orel (steps R) (parse_array fuel fn s r) (parse_array fuel gn s' r).
Proof.
  intros H Hs. unfold parse_array. apply orel_same. intros [t r1] _. destruct (same_type t TNull); [split; auto|].
  apply orel_same. intros [t2 r2] _. destruct (same_type t2 TArrE); [|now apply array_loop_sim].
  apply orel_same. intros [t3 r3] _. split; auto.
Qed.
End Loops.

(* ---- alike ---- *)
Lemma alike_items_app l l' m m' : alike_items l l' -> alike_items m m' -> alike_items (l ++ m) (l' ++ m').
Proof. induction 1; cbn; auto using alike_items. Qed.
Lemma alike_refl (P : list str -> Prop) v : (forall ks, P ks -> NoDup ks) -> maps_ok P v -> alike v v.
Proof.
  intros HP. induction 1 as [| | | | | |p Hp IH|l Hl IH|m Hm Hx IH|o Ho IH]; try constructor; auto.
  - clear Hl. induction l as [|x l IHl]; constructor; [apply IH; now left|apply IHl; intros; apply IH; now right].
  - reflexivity.
  - intros k x y E1 E2. rewrite E1 in E2. injection E2 as <-. apply (IH k). now apply afind_In.
  - clear Ho. induction o as [|[k x] l IHl]; constructor; [apply (IH k); now left|apply IHl; intros; eapply IH; right; eauto].
Qed.
Lemma alike_sym_all : (forall v u, alike v u -> alike u v) /\ (forall l l', alike_items l l' -> alike_items l' l) /\
  (forall o o', alike_fields o o' -> alike_fields o' o).
Proof.
  apply alike_comb; intros; try (constructor; auto; fail).
  constructor; [intro k; now rewrite H|]. intros k x y E1 E2. eauto.
Qed.
Lemma alike_sym v u : alike v u -> alike u v.
Proof. apply alike_sym_all. Qed.
Lemma alike_trans_all : (forall v u, alike v u -> forall w, alike u w -> alike v w) /\
  (forall l l', alike_items l l' -> forall l'', alike_items l' l'' -> alike_items l l'') /\
  (forall o o', alike_fields o o' -> forall o'', alike_fields o' o'' -> alike_fields o o'').
Proof.
  apply alike_comb; try (intros; assumption).
  - intros p q _ IH w Hw. inversion Hw; subst. constructor. auto.
  - intros l l' _ IH w Hw. inversion Hw; subst. constructor. auto.
  - intros m m' Hk _ IH w Hw. inversion Hw as [| | | | | | | |m1 m2 Hk' Hx'|]; subst. constructor.
    + intro k. now rewrite Hk.
    + intros k x z E1 E3. assert (Ik : In k (akeys m')). { apply Hk. apply afind_In in E1. now apply (in_map fst) in E1. }
      apply keys_find in Ik as (y & E2). eauto.
  - intros o o' _ IH w Hw. inversion Hw; subst. constructor. auto.
  - intros x y l l' _ IH _ IH' w Hw. inversion Hw; subst. constructor; auto.
  - intros k x y o o' _ IH _ IH' w Hw. inversion Hw; subst. constructor; auto.
Qed.
Lemma alike_trans v u w : alike v u -> alike u w -> alike v w.
Proof. intros H K. exact (proj1 alike_trans_all _ _ H _ K). Qed.
Lemma alike_field k o o' : alike_fields o o' -> alike (field_of k o) (field_of k o').
Proof.
  unfold field_of. induction 1 as [|k' x y o o' Hx Ho IH]; [constructor|]. cbn [afind]. destruct (str_eqb k k'); auto.
Qed.
Lemma alike_aset k x y o o' : alike x y -> alike_fields o o' -> alike_fields (aset k x o) (aset k y o').
Proof.
  intro Hx. induction 1 as [|k' x' y' o o' Hx' Ho IH]; cbn [aset]; [constructor; auto; constructor|].
  destruct (str_eqb k k'); constructor; auto.
Qed.
Lemma aset_In k x o k' (y : val) : In (k', y) (aset k x o) -> y = x \/ In (k', y) o.
Proof.
  induction o as [|[k1 x1] o IH]; cbn [aset]; [intros [H|[]]; injection H; auto|].
  destruct (str_eqb k k1); cbn [In]; intros [H|H]; auto; [injection H; auto|]. apply IH in H. tauto.
Qed.
Lemma field_ok (P : list str -> Prop) k o : (forall k x, In (k, x) o -> maps_ok P x) -> maps_ok P (field_of k o).
Proof. intros H. unfold field_of. destruct (afind k o) eqn:E; [|constructor]. apply (H k). now apply afind_In. Qed.

(* ---- two insertions ---- *)
Definition lawful_on (P : list str -> Prop) (ins : insertion) : Prop := forall r k x m, P (akeys m) ->
  P (akeys (ins r k x m)) /\ forall k', afind k' (ins r k x m) = if str_eqb k' k then Some x else afind k' m.
Section Sim.
Context (P Q : list str -> Prop) (ins1 ins2 : insertion).
Context (P0 : P []) (Q0 : Q []) (L1 : lawful_on P ins1) (L2 : lawful_on Q ins2).
Definition rel (v u : val) : Prop := alike v u /\ maps_ok P v /\ maps_ok Q u.
Definition rmap (m m' : list (str * val)) : Prop := rel (VMap m) (VMap m').
Definition rlist (l l' : list val) : Prop := rel (VList l) (VList l').
Definition robj (o o' : list (str * val)) : Prop := rel (VObj o) (VObj o').

Lemma ins_in ins (X : list str -> Prop) r k x m : lawful_on X ins -> (forall ks, X ks -> NoDup ks) -> X (akeys m) ->
  (forall k' y, In (k', y) m -> maps_ok X y) -> maps_ok X x -> maps_ok X (VMap (ins r k x m)).
Proof.
  intros L N Xm Hm Hx. destruct (L r k x m Xm) as (A & B). constructor; [exact A|]. intros k' y I.
  apply In_afind_NoDup in I; [|auto]. rewrite B in I. destruct (str_eqb k' k); [injection I as <-; auto|]. apply afind_In in I. eauto.
Qed.
Context (PN : forall ks, P ks -> NoDup ks) (QN : forall ks, Q ks -> NoDup ks).
Lemma find_In_iff {V} k (m : list (str * V)) : In k (akeys m) <-> exists x, afind k m = Some x.
Proof. split; [apply keys_find|]. intros (x & E). apply afind_In in E. now apply (in_map fst) in E. Qed.
Lemma rmap_ins r r' k x y m m' : rel x y -> rmap m m' -> rmap (ins1 r k x m) (ins2 r' k y m').
Proof.
  intros (Ax & Px & Qy) (Am & Pm & Qm). inversion Pm as [| | | | | | | |m0 Pk Pv|]; subst. inversion Qm as [| | | | | | | |m0 Qk Qv|]; subst.
  inversion Am as [| | | | | | | |m0 m1 Ak Av|]; subst.
  split; [|split; eapply ins_in; eauto]. destruct (L1 r k x m Pk) as (_ & B1). destruct (L2 r' k y m' Qk) as (_ & B2).
  constructor.
  - intro k'. rewrite !find_In_iff, B1, B2. destruct (str_eqb k' k); [split; eauto|]. rewrite <- !find_In_iff. apply Ak.
  - intros k' a b. rewrite B1, B2. destruct (str_eqb k' k); [intros [= <-] [= <-]; auto|]. apply Av.
Qed.
Lemma rmap_has k m m' : rmap m m' -> ahas k m = ahas k m'.
Proof.
  intros (A & _). inversion A as [| | | | | | | |m0 m1 Ak Av|]; subst. unfold ahas.
  destruct (afind k m) eqn:E1, (afind k m') eqn:E2; auto.
  - assert (I : In k (akeys m')) by (apply Ak, find_In_iff; eauto). apply find_In_iff in I as (z & I). congruence.
  - assert (I : In k (akeys m)) by (apply Ak, find_In_iff; eauto). apply find_In_iff in I as (z & I). congruence.
Qed.
Lemma rlist_app l l' x y : rel x y -> rlist l l' -> rlist (l ++ [x]) (l' ++ [y]).
Proof.
  intros (Ax & Px & Qy) (Al & Pl & Ql). inversion Al; subst. inversion Pl as [| | | | | | |l0 Pv| |]; subst. inversion Ql as [| | | | | | |l0 Qv| |]; subst. split; [|split].
  - constructor. apply alike_items_app; auto. constructor; auto. constructor.
  - constructor. intros z Hz. apply in_app_or in Hz as [Hz|[<-|[]]]; auto.
  - constructor. intros z Hz. apply in_app_or in Hz as [Hz|[<-|[]]]; auto.
Qed.
Lemma robj_set k o o' x y : rel x y -> robj o o' -> robj (aset k x o) (aset k y o').
Proof.
  intros (Ax & Px & Qy) (Al & Pl & Ql). inversion Al; subst. inversion Pl as [| | | | | | | | |l0 Pv]; subst. inversion Ql as [| | | | | | | | |l0 Qv]; subst. split; [|split].
  - constructor. now apply alike_aset.
  - constructor. intros k' z Hz. apply aset_In in Hz as [->|Hz]; eauto.
  - constructor. intros k' z Hz. apply aset_In in Hz as [->|Hz]; eauto.
Qed.
Lemma robj_field k o o' : robj o o' -> rel (field_of k o) (field_of k o').
Proof.
  intros (Al & Pl & Ql). inversion Al; subst. inversion Pl as [| | | | | | | | |l0 Pv]; subst. inversion Ql as [| | | | | | | | |l0 Qv]; subst.
  split; [now apply alike_field|]. split; now apply field_ok.
Qed.
Lemma rmap_nil : rmap [] [].
Proof. split; [constructor; [reflexivity|discriminate]|]. split; constructor; auto; intros k x []. Qed.
Lemma rlist_nil : rlist [] [].
Proof. split; [constructor; constructor|]. split; constructor; intros x []. Qed.
Lemma robj_nil : robj [] [].
Proof. split; [constructor; constructor|]. split; constructor; intros k x []. Qed.
Lemma rel_void : rel VVoid VVoid.
Proof. repeat split; constructor. Qed.
Lemma rel_map v u : rel v u -> rmap (map_of v) (map_of u).
Proof. intros R. pose proof R as (A & _). destruct A; try exact rmap_nil. exact R. Qed.
Lemma rel_list v u : rel v u -> rlist (list_of v) (list_of u).
Proof. intros R. pose proof R as (A & _). destruct A; try exact rlist_nil. exact R. Qed.
Lemma rel_obj v u : rel v u -> robj (obj_of v) (obj_of u).
Proof. intros R. pose proof R as (A & _). destruct A; try exact robj_nil. exact R. Qed.

Ltac leaf := apply orel_same; let a := fresh "a" in let r := fresh "r" in intros [a r] _; repeat split; constructor.
Lemma parse_dyn_sim : forall f v u r, rel v u -> orel (steps rel) (parse_dyn_u ins1 f v r) (parse_dyn_u ins2 f u r).
Proof.
  induction f as [|f IH]; intros v u r R; cbn [parse_dyn_u]; [exact Logic.I|]. apply orel_same. intros [t r1] _.
  assert (Df : orel (steps rel) (Ok (v, rerror_set (EUnknown t (rbuf r1)) r1)) (Ok (u, rerror_set (EUnknown t (rbuf r1)) r1))) by (split; auto).
  destruct t; try exact Df.
  - apply (orel_bind (steps rmap)).
    + apply parse_object_sim; [|exact rmap_nil]. intros k s s' r0 Hs. apply (orel_bind (steps rel)); [apply IH, rel_void|].
      intros [x r2] [y r2'] [Hx Hr]. cbn [fst snd] in *. subst r2'. rewrite (rmap_has k s s' Hs). destruct (ahas k s'); [split; auto|]. split; auto. now apply rmap_ins.
    + intros [m r2] [m' r2'] [Hx Hr]. split; auto.
  - apply (orel_bind (steps rlist)).
    + apply parse_array_sim; [|exact rlist_nil]. intros k s s' r0 Hs. apply (orel_bind (steps rel)); [apply IH, rel_void|].
      intros [x r2] [y r2'] [Hx Hr]. cbn [fst snd] in *. subst r2'. split; auto. now apply rlist_app.
    + intros [m r2] [m' r2'] [Hx Hr]. split; auto.
  - leaf.
  - leaf.
  - leaf.
  - leaf.
  - apply orel_same. intros r2 _. split; auto.
Qed.

Definition steps3 (x y : val * bool * reader) : Prop := rel (fst (fst x)) (fst (fst y)) /\ snd (fst x) = snd (fst y) /\ snd x = snd y.
Context (e : env) (D1 : forall t, maps_ok P (dval e t)) (D2 : forall t, maps_ok Q (dval e t)).
Lemma rel_dval t : rel (dval e t) (dval e t).
Proof. split; [exact (alike_refl P _ PN (D1 t))|]. split; auto. Qed.
Ltac leaf3 := apply orel_same; let a := fresh "a" in let r := fresh "r" in intros [a r] _; repeat split; constructor.
Lemma parse_sim : forall f t v u r, rel v u -> orel steps3 (parse_u ins1 f e t v r) (parse_u ins2 f e t u r).
Proof.
  induction f as [|f IH]; intros t v u r R; cbn [parse_u]; [exact Logic.I|].
  destruct (nth_error e t) as [[| | | |sm i|i|i| |fs ini]|]; try exact Logic.I.
  - leaf3.
  - destruct is_int64; [leaf3|]. apply orel_same. intros [a r0] _. exact Logic.I.
  - destruct is_double; [leaf3|]. apply orel_same. intros [a r0] _. exact Logic.I.
  - leaf3.
  - apply orel_same. intros [tk r1] _. destruct (same_type tk TNull).
    + apply orel_same. intros [x r2] _. destruct sm; split; auto; repeat split; constructor.
    + cbv zeta. apply (orel_bind steps3).
      * apply IH. pose proof R as (A & Pv & Qu). destruct A; try apply rel_dval. inversion Pv; inversion Qu; subst. split; auto.
      * intros [[x b] r2] [[y b'] r2'] (Hx & Hb & Hr). cbn [fst snd] in *. subst. destruct Hx as (Hx1 & Hx2 & Hx3). repeat split; constructor; auto.
  - apply (orel_bind (steps rmap)).
    + apply parse_object_sim; [|now apply rel_map]. intros k s s' r0 Hs. apply (orel_bind steps3); [apply IH, rel_dval|].
      intros [[x b] r2] [[y b'] r2'] (Hx & Hb & Hr). cbn [fst snd] in *. subst b' r2'. destruct (rok r2); [|split; auto].
      destruct b; [exact Logic.I|]. split; auto. now apply rmap_ins.
    + intros [m r2] [m' r2'] [Hx Hr]. repeat split; auto; apply Hx.
  - apply (orel_bind (steps rlist)).
    + apply parse_array_sim; [|now apply rel_list]. intros k s s' r0 Hs. apply (orel_bind steps3); [apply IH, rel_dval|].
      intros [[x b] r2] [[y b'] r2'] (Hx & Hb & Hr). cbn [fst snd] in *. subst b' r2'. destruct (rok r2); [|split; auto].
      destruct b; [exact Logic.I|]. split; auto. now apply rlist_app.
    + intros [m r2] [m' r2'] [Hx Hr]. repeat split; auto; apply Hx.
  - apply (orel_bind (steps rel)); [now apply parse_dyn_sim|]. intros [x r2] [y r2'] [Hx Hr]. repeat split; auto; apply Hx.
  - apply (orel_bind (steps robj)).
    + apply parse_object_sim; [|now apply rel_obj]. intros a s s' r0 Hs. destruct (find_alias fs a) as [fd|].
      * apply (orel_bind steps3); [now apply IH, robj_field|].
        intros [[x b] r2] [[y b'] r2'] (Hx & Hb & Hr). cbn [fst snd] in *. subst b' r2'. split; auto. now apply robj_set.
      * apply orel_same. intros r1 _. split; auto.
    + intros [m r2] [m' r2'] [Hx Hr]. repeat split; auto; apply Hx.
Qed.
Lemma parse_text_sim f o t v u s : rel v u -> orel (steps rel) (parse_text_u ins1 f o e t v s) (parse_text_u ins2 f o e t u s).
Proof.
  intro R. unfold parse_text_u. apply orel_same. intros c _. apply (orel_bind steps3); [now apply parse_sim|].
  intros [[x b] r2] [[y b'] r2'] (Hx & Hb & Hr). split; auto.
Qed.
End Sim.

(* ---- std::map as an instance ---- *)
Definition std_ins : insertion := fun _ => map_set.
Lemma std_lawful : lawful_on sorted std_ins.
Proof. intros r k x m S. split; [now apply map_set_sorted|]. intro k'. now apply afind_map_set. Qed.
Lemma object_loop_ext {S} fn gn : (forall k (s : S) r, fn k s r = gn k s r) -> forall f s r, object_loop f fn s r = object_loop f gn s r.
Proof.
  intro H. induction f as [|f IH]; intros s r; cbn [object_loop]; auto. destruct (rok r); auto.
  destruct (expect_tok TStr r) as [[t r1]| | | |]; cbn [bind]; auto. destruct (as_string t r1); cbn [bind]; auto.
  destruct (expect_tok TKey r1) as [[t2 r2]| | | |]; cbn [bind]; auto. rewrite H. destruct (gn (rbuf r2) s r2) as [[s1 r3]| | | |]; cbn [bind]; auto.
  destruct (next_tok r3) as [[t3 r4]| | | |]; cbn [bind]; auto. destruct (same_type t3 TObjE); auto.
Qed.
Lemma parse_object_ext {S} fn gn f (s : S) r : (forall k s r, fn k s r = gn k s r) -> parse_object f fn s r = parse_object f gn s r.
Proof.
  intro H. unfold parse_object. destruct (next_tok r) as [[t r1]| | | |]; cbn [bind]; auto. destruct (same_type t TNull); auto.
  destruct (peek_tok _) as [[t2 r2]| | | |]; cbn [bind]; auto. destruct (same_type t2 TObjE); auto. now apply object_loop_ext.
Qed.
Lemma array_loop_ext {S} fn gn : (forall k (s : S) r, fn k s r = gn k s r) -> forall f i s r, array_loop f fn i s r = array_loop f gn i s r.
Proof.
  intro H. induction f as [|f IH]; intros i s r; cbn [array_loop]; auto. destruct (rok r); auto.
  rewrite H. destruct (gn i s r) as [[s1 r3]| | | |]; cbn [bind]; auto.
  destruct (next_tok r3) as [[t3 r4]| | | |]; cbn [bind]; auto. destruct (same_type t3 TArrE); auto.
Qed.
Lemma parse_array_ext {S} fn gn f (s : S) r : (forall k s r, fn k s r = gn k s r) -> parse_array f fn s r = parse_array f gn s r.
Proof.
  intro H. unfold parse_array. destruct (next_tok r) as [[t r1]| | | |]; cbn [bind]; auto. destruct (same_type t TNull); auto.
  destruct (peek_tok _) as [[t2 r2]| | | |]; cbn [bind]; auto. destruct (same_type t2 TArrE); auto. now apply array_loop_ext.
Qed.
Lemma std_parse e : no_void e -> forall f t v r, parse_t f e t v r = parse_u std_ins f e t v r.
Proof.
  intro NV. induction f as [|f IH]; intros t v r; cbn [parse_t parse_u]; auto.
  destruct (nth_error e t) as [[| | | |sm i|i|i| |fs ini]|] eqn:Et; auto.
  - destruct (peek_tok r) as [[tk r1]| | | |]; cbn [bind]; auto. destruct (same_type tk TNull); auto. cbv zeta. now rewrite IH.
  - erewrite parse_object_ext; [reflexivity|]. intros k s r0. cbv beta. now rewrite IH.
  - erewrite parse_array_ext; [reflexivity|]. intros k s r0. cbv beta. now rewrite IH.
  - destruct (NV t Et).
  - erewrite parse_object_ext; [reflexivity|]. intros k s r0. cbv beta. destruct (find_alias fs k); auto. now rewrite IH.
Qed.
Lemma std_text e f o t v s : no_void e -> parse_text f o e t v s = parse_text_u std_ins f o e t v s.
Proof. intro NV. unfold parse_text, parse_text_u. now rewrite std_parse. Qed.
