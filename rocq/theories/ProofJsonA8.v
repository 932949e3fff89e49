(* ProofJsonA8.v - the state a document leaves a target in is determined *)
From Coq Require String. Import String.StringSyntax.
From Verif Require Import Base Dec ModelJson ModelJsonW ModelJsonT SpecJson SpecJsonT SpecJsonA ProofJsonT1.

Ltac same H := match goal with E : nth_error ?e ?t = Some _, E' : nth_error ?e ?t = Some _ |- _ =>
  rewrite E in E'; inversion E'; clear E'; subst end.

Lemma reads_det e :
  (forall t v j v1, reads e t v j v1 -> forall v2, reads e t v j v2 -> v1 = v2) /\
  (forall i js xs, reads_items e i js xs -> forall xs', reads_items e i js xs' -> xs = xs') /\
  (forall i kjs kxs, reads_pairs e i kjs kxs -> forall kxs', reads_pairs e i kjs kxs' -> kxs = kxs') /\
  (forall fs o kjs o1, reads_members e fs o kjs o1 -> forall o2, reads_members e fs o kjs o2 -> o1 = o2).
Proof.
  apply reads_comb.
  all: try (intros; match goal with H : reads _ _ _ _ ?v |- _ = ?v => inversion H; subst; same H; auto; try congruence end; fail).
  - (* ptr *) intros t sm i p j p' Hd Nj _ IH v2 K. inversion K; subst; same K; try congruence. f_equal. f_equal. now apply IH.
  - (* list *) intros t i l js xs Hd _ IH v2 K. inversion K; subst; same K. f_equal. f_equal. now apply IH.
  - (* map *) intros t i m kjs kxs m' Hd Sm _ IH Up v2 K. inversion K as [| | | | | | | | | | |? ? ? ? kxs2 m2 Hd2 Sm2 Rp2 Up2| | |]; subst; same K.
    rewrite <- (IH _ Rp2) in Up2. f_equal. destruct Up as (S1 & U1), Up2 as (S2 & U2). apply sorted_ext; auto. intro k. now rewrite U1, U2.
  - (* obj *) intros t fs ini o kjs o' Hd _ IH v2 K. inversion K; subst; same K. f_equal. now apply IH.
  - intros i xs' K. inversion K. reflexivity.
  - intros i j js x xs Nr _ IH _ IHs xs' K. inversion K; subst. f_equal; auto.
  - intros i xs' K. inversion K. reflexivity.
  - intros i k j kjs x kxs Nr _ IH _ IHs xs' K. inversion K; subst. f_equal; auto. f_equal; auto.
  - intros fs o o2 K. inversion K. reflexivity.
  - intros fs o a j kjs o' Nf _ IH o2 K. inversion K as [|? ? ? ? ? ? Nf2 R2|? ? f ? x cur ? ? Hf Hs U Hc Rx R2]; subst; [auto|].
    exfalso. eapply Nf; eauto.
  - intros fs o f j x cur kjs o' Hf Hs U Hc _ IHx _ IH o2 K.
    inversion K as [|? ? ? ? ? ? Nf2 R2|? ? f2 ? x2 cur2 ? ? Hf2 Hs2 U2 Hc2 Rx2 R2 E1]; subst.
    + exfalso. eapply Nf2; eauto.
    + assert (f2 = f) as -> by (apply U; auto). rewrite Hc in Hc2. injection Hc2 as <-. rewrite <- (IHx _ Rx2) in R2. now apply IH.
Qed.
