(* PropJsonVoid.v - C40: types with a dynamic value in them cannot be printed; C41: types
   with a class in them two fields of which share a name cannot be read. *)
From Coq Require String. Import String.StringSyntax.
From Verif Require Import Base ModelJson ModelJsonW ModelJsonT SpecJson SpecJsonT ProofJson7 ProofJsonT1 ProofJsonT2 ProofJsonT5.
Local Open Scope outcome_scope.

(* the types a value of type t is made of: itself, items and pointees, and the types of
   the fields that are not skipped, through any number of levels *)
Inductive leads (e : env) (t : nat) : nat -> Prop :=
| leads_self : leads e t t
| leads_step u d i : leads e t u -> nth_error e u = Some d -> In i (refs d) -> leads e t i.

(* what is in the cache beyond c has P and is closed, the grey types c aside *)
Definition closed (P : jtype -> Prop) (e : env) (c c' : list nat) : Prop :=
  incl c c' /\ forall u, In u c' -> ~ In u c ->
    exists d, nth_error e u = Some d /\ P d /\ incl (refs d) c'.
Lemma closed_refl P e c : closed P e c c.
Proof. split; [apply incl_refl|]. intros u H K. contradiction. Qed.
Lemma closed_trans P e a b c : closed P e a b -> closed P e b c -> closed P e a c.
Proof.
  intros [I1 H1] [I2 H2]. split; [now apply incl_tran with b|]. intros u Hu Hn.
  destruct (in_dec Nat.eq_dec u b) as [K|K]; [|auto]. destruct (H1 u K Hn) as (d & A & B & C). exists d. split; auto. split; auto.
  now apply incl_tran with b.
Qed.
Definition printable (d : jtype) : Prop := d <> DVoid.
Lemma init_closed e : forall fuel t c c', init_printer fuel e t c = Ok c' -> closed printable e c c' /\ In t c'.
Proof.
  induction fuel as [|f IH]; intros t c c' E; [discriminate|]. cbn [init_printer] in E.
  destruct (existsb (Nat.eqb t) c) eqn:Ec.
  { injection E as <-. split; [apply closed_refl|]. apply existsb_exists in Ec as (x & Hx & Ex). apply Nat.eqb_eq in Ex. now subst. }
  assert (Hnew : ~ In t c).
  { intro K. assert (X : existsb (Nat.eqb t) c = true) by (apply existsb_exists; exists t; split; [exact K|apply Nat.eqb_refl]). congruence. }
  assert (Hmk : forall d, nth_error e t = Some d -> printable d -> closed printable e (t :: c) c' -> incl (refs d) c' -> closed printable e c c' /\ In t c').
  { intros d Hd Hv [I1 H1] Hr. split; [|apply I1; now left]. split; [intros x Hx; apply I1; now right|].
    intros u Hu Hn. destruct (Nat.eq_dec u t) as [->|Hut]; [exists d; auto|]. apply H1; auto. intros [X|X]; [congruence|contradiction]. }
  assert (Hone : forall i d, nth_error e t = Some d -> printable d -> refs d = [i] -> init_printer f e i (t :: c) = Ok c' -> closed printable e c c' /\ In t c').
  { intros i d Hd Hv Hr Ei. destruct (IH _ _ _ Ei) as [H1 H2]. apply (Hmk d); auto. rewrite Hr. intros x [<-|[]]. exact H2. }
  cbv zeta in E. destruct (nth_error e t) as [d|] eqn:Et; [|discriminate].
  destruct d; try discriminate E;
    try (injection E as <-; apply (Hmk _ eq_refl); [unfold printable; discriminate|apply closed_refl|intros x []]; fail);
    try (eapply (Hone _ _ eq_refl); [unfold printable; discriminate|reflexivity|exact E]; fail).
  assert (Hf : forall l c0 x, fold_left (fun acc fd => do c <- acc; init_printer f e (f_type fd) c) l x = Ok c' ->
    (forall y, x = Ok y -> closed printable e c0 y) -> closed printable e c0 c' /\ (forall fd, In fd l -> In (f_type fd) c') /\ (forall y, x = Ok y -> incl y c')).
  { induction l as [|b l IHl]; intros c0 x Ex Hx; cbn [fold_left] in Ex.
    - split; [now apply Hx|]. split; [intros fd []|]. intros y Ey. rewrite Ex in Ey. injection Ey as <-. apply incl_refl.
    - destruct x as [y| | | |]; cbn [bind] in Ex;
        try (exfalso; clear - Ex; induction l as [|b' l IHl]; cbn [fold_left bind] in Ex; [discriminate|auto]; fail).
      destruct (IHl c0 (init_printer f e (f_type b) y) Ex) as (A & B & C).
      { intros z Ez. eapply closed_trans; [now apply Hx|]. now apply (IH _ _ _ Ez). }
      destruct (init_printer f e (f_type b) y) as [z| | | |] eqn:Ez;
        try (exfalso; clear - Ex; induction l as [|b' l IHl]; cbn [fold_left bind] in Ex; [discriminate|auto]; fail).
      destruct (IH _ _ _ Ez) as [H1 H2]. specialize (C z eq_refl).
      split; [exact A|]. split; [intros fd [<-|Hfd]; [now apply C|auto]|]. intros q Eq. injection Eq as <-.
      eapply incl_tran; [exact (proj1 H1)|exact C]. }
  destruct (Hf _ (t :: c) _ E) as (A & B & _); [intros y Ey; injection Ey as <-; apply closed_refl|].
  apply (Hmk _ eq_refl); [unfold printable; discriminate|exact A|].
  intros x Hx. cbn [refs] in Hx. apply in_map_iff in Hx as (fd & <- & Hfd). now apply B.
Qed.
Lemma init_three e : forall fuel t c, init_printer fuel e t c = OutOfFuel \/ init_printer fuel e t c = Abort \/ exists c', init_printer fuel e t c = Ok c'.
Proof.
  induction fuel as [|f IH]; intros t c; [now left|]. cbn [init_printer].
  destruct (existsb _ c); [right; right; eauto|]. cbv zeta. destruct (nth_error e t) as [d|]; [|auto].
  destruct d; auto; try (right; right; eauto; fail).
  generalize (obj_fields fs). intro l.
  assert (H : forall x, (x = OutOfFuel \/ x = Abort \/ exists c', x = Ok c') ->
    let y := fold_left (fun acc fd => do c <- acc; init_printer f e (f_type fd) c) l x in y = OutOfFuel \/ y = Abort \/ exists c', y = Ok c').
  { induction l as [|b l IHl]; intros x Hx; [exact Hx|]. cbn [fold_left]. apply IHl. destruct Hx as [->|[->|(c' & ->)]]; cbn [bind]; auto. }
  apply H. right. right. eauto.
Qed.

Lemma dup_none fs : dup_alias fs = false -> NoDup (map json_name fs).
Proof.
  induction fs as [|f fs IH]; cbn [dup_alias map]; intro H; [constructor|]. apply orb_false_iff in H as [H1 H2].
  constructor; [|auto]. intro K. change (map f_name fs) with (map json_name fs) in H1. change (f_name f) with (json_name f) in H1.
  apply smem_In in K. congruence.
Qed.
Definition readable (d : jtype) : Prop := names_distinct d.
Lemma parser_closed e : forall fuel t c c', init_parser fuel e t c = Ok c' -> closed readable e c c' /\ In t c'.
Proof.
  induction fuel as [|f IH]; intros t c c' E; [discriminate|]. cbn [init_parser] in E.
  destruct (existsb (Nat.eqb t) c) eqn:Ec.
  { injection E as <-. split; [apply closed_refl|]. apply existsb_exists in Ec as (x & Hx & Ex). apply Nat.eqb_eq in Ex. now subst. }
  assert (Hnew : ~ In t c).
  { intro K. assert (X : existsb (Nat.eqb t) c = true) by (apply existsb_exists; exists t; split; [exact K|apply Nat.eqb_refl]). congruence. }
  assert (Hmk : forall d, nth_error e t = Some d -> readable d -> closed readable e (t :: c) c' -> incl (refs d) c' -> closed readable e c c' /\ In t c').
  { intros d Hd Hv [I1 H1] Hr. split; [|apply I1; now left]. split; [intros x Hx; apply I1; now right|].
    intros u Hu Hn. destruct (Nat.eq_dec u t) as [->|Hut]; [exists d; auto|]. apply H1; auto. intros [X|X]; [congruence|contradiction]. }
  assert (Hone : forall i d, nth_error e t = Some d -> readable d -> refs d = [i] -> init_parser f e i (t :: c) = Ok c' -> closed readable e c c' /\ In t c').
  { intros i d Hd Hv Hr Ei. destruct (IH _ _ _ Ei) as [H1 H2]. apply (Hmk d); auto. rewrite Hr. intros x [<-|[]]. exact H2. }
  cbv zeta in E. destruct (nth_error e t) as [d|] eqn:Et; [|discriminate].
  destruct d; try discriminate E;
    try (injection E as <-; apply (Hmk _ eq_refl); [exact Logic.I|apply closed_refl|intros x []]; fail);
    try (eapply (Hone _ _ eq_refl); [exact Logic.I|reflexivity|exact E]; fail).
  destruct (dup_alias (obj_fields fs)) eqn:Ed; [discriminate|].
  assert (Hf : forall l c0 x, fold_left (fun acc fd => do c <- acc; init_parser f e (f_type fd) c) l x = Ok c' ->
    (forall y, x = Ok y -> closed readable e c0 y) -> closed readable e c0 c' /\ (forall fd, In fd l -> In (f_type fd) c') /\ (forall y, x = Ok y -> incl y c')).
  { induction l as [|b l IHl]; intros c0 x Ex Hx; cbn [fold_left] in Ex.
    - split; [now apply Hx|]. split; [intros fd []|]. intros y Ey. rewrite Ex in Ey. injection Ey as <-. apply incl_refl.
    - destruct x as [y| | | |]; cbn [bind] in Ex;
        try (exfalso; clear - Ex; induction l as [|b' l IHl]; cbn [fold_left bind] in Ex; [discriminate|auto]; fail).
      destruct (IHl c0 (init_parser f e (f_type b) y) Ex) as (A & B & C).
      { intros z Ez. eapply closed_trans; [now apply Hx|]. now apply (IH _ _ _ Ez). }
      destruct (init_parser f e (f_type b) y) as [z| | | |] eqn:Ez;
        try (exfalso; clear - Ex; induction l as [|b' l IHl]; cbn [fold_left bind] in Ex; [discriminate|auto]; fail).
      destruct (IH _ _ _ Ez) as [H1 H2]. specialize (C z eq_refl).
      split; [exact A|]. split; [intros fd [<-|Hfd]; [now apply C|auto]|]. intros q Eq. injection Eq as <-.
      eapply incl_tran; [exact (proj1 H1)|exact C]. }
  destruct (Hf _ (t :: c) _ E) as (A & B & _); [intros y Ey; injection Ey as <-; apply closed_refl|].
  apply (Hmk _ eq_refl); [now apply dup_none|exact A|].
  intros x Hx. cbn [refs] in Hx. apply in_map_iff in Hx as (fd & <- & Hfd). now apply B.
Qed.
Lemma parser_three e : forall fuel t c, init_parser fuel e t c = OutOfFuel \/ init_parser fuel e t c = Abort \/ exists c', init_parser fuel e t c = Ok c'.
Proof.
  induction fuel as [|f IH]; intros t c; [now left|]. cbn [init_parser].
  destruct (existsb _ c); [right; right; eauto|]. cbv zeta. destruct (nth_error e t) as [d|]; [|auto].
  destruct d; auto; try (right; right; eauto; fail). destruct (dup_alias _); auto.
  generalize (obj_fields fs). intro l.
  assert (H : forall x, (x = OutOfFuel \/ x = Abort \/ exists c', x = Ok c') ->
    let y := fold_left (fun acc fd => do c <- acc; init_parser f e (f_type fd) c) l x in y = OutOfFuel \/ y = Abort \/ exists c', y = Ok c').
  { induction l as [|b l IHl]; intros x Hx; [exact Hx|]. cbn [fold_left]. apply IHl. destruct Hx as [->|[->|(c' & ->)]]; cbn [bind]; auto. }
  apply H. right. right. eauto.
Qed.

(* Printing a value of a type that leads to a dynamic one (a reflected Value, whose type
   is void) is reported as an error, whatever the value: the printers are made
   for the whole type before anything is printed. *)
Theorem c40_dynamic_not_printable : forall (e : env) (t u : nat),
  leads e t u -> nth_error e u = Some DVoid ->
  exists steps, forall fuel, (steps <= fuel)%nat -> forall (o : wopts) (x : val), print_text fuel o e t x = Abort.
Proof.
  intros e t u Hl Hu. exists (S (length e)). intros fuel Hf o x. unfold print_text.
  destruct (init_printer_good e fuel t []) as [H _]; [rewrite fresh_nil; lia|].
  destruct (init_three e fuel t []) as [E|[E|(c & E)]]; [contradiction|now rewrite E|].
  exfalso. destruct (init_closed _ _ _ _ _ E) as [[_ K] I].
  assert (Hin : forall v, leads e t v -> In v c).
  { clear Hl. induction 1 as [|v d i Hv IH Hd Hi]; [exact I|]. destruct (K v IH (fun X => X)) as (d' & A & _ & B).
    apply B. rewrite Hd in A. now injection A as <-. }
  destruct (K u (Hin u Hl) (fun X => X)) as (d & A & B & _). congruence.
Qed.
Print Assumptions c40_dynamic_not_printable.

(* Reading into an object of a type that leads to a class two of whose fields, skipped
   ones aside, have the same name in the text is reported as an error, whatever the text. *)
Theorem c41_repeated_names_not_readable : forall (e : env) (t u : nat) (fs : list field) (ini : list (str * val)),
  leads e t u -> nth_error e u = Some (DObj fs ini) ->
  ~ NoDup (map json_name (filter (fun f => negb (f_skip f)) fs)) ->
  exists steps, forall fuel, (steps <= fuel)%nat -> forall (o : ropts) (x : val) (text : str), parse_text fuel o e t x text = Abort.
Proof.
  intros e t u fs ini Hl Hu Hd. exists (S (length e)). intros fuel Hf o x text. unfold parse_text.
  destruct (init_parser_good e fuel t []) as [H _]; [rewrite fresh_nil; lia|].
  destruct (parser_three e fuel t []) as [E|[E|(c & E)]]; [contradiction|now rewrite E|].
  exfalso. destruct (parser_closed _ _ _ _ _ E) as [[_ K] I].
  assert (Hin : forall v, leads e t v -> In v c).
  { clear Hl. induction 1 as [|v d i Hv IH Hd' Hi]; [exact I|]. destruct (K v IH (fun X => X)) as (d' & A & _ & B).
    apply B. rewrite Hd' in A. now injection A as <-. }
  destruct (K u (Hin u Hl) (fun X => X)) as (d & A & B & _). rewrite Hu in A. injection A as <-. exact (Hd B).
Qed.
Print Assumptions c41_repeated_names_not_readable.
Example c41_repeated_example :
  let e := [DList 1; DObj [mkF (lit "a") 2 false (lit "x") false; mkF (lit "b") 2 false (lit "x") false] [(lit "a", VInt 1); (lit "b", VInt 2)]; DInt true] in
  leads e 0 1 /\ ~ NoDup (map json_name [mkF (lit "a") 2 false (lit "x") false; mkF (lit "b") 2 false (lit "x") false]) /\
  parse_text 10 ropts_default e 0 (VList []) (lit "[]") = Abort.
Proof.
  split; [|split; [|vm_compute; reflexivity]].
  - eapply (leads_step _ _ 0); [constructor|reflexivity|now left].
  - intro H. inversion H as [|? ? K _]; subst. apply K. now left.
Qed.

Example c40_dynamic_example :
  let e := [DObj [mkF (lit "any") 1 false [] false] [(lit "any", VList [])]; DList 2; DVoid] in
  leads e 0 2 /\ print_text 10 wopts_default e 0 (VObj [(lit "any", VList [])]) = Abort /\
  (* skipping the field makes it printable *)
  print_text 10 wopts_default [DObj [mkF (lit "any") 1 true [] false] [(lit "any", VList [])]; DList 2; DVoid] 0 (VObj [(lit "any", VList [])]) = Ok (lit "{}", false).
Proof.
  split; [|split; vm_compute; reflexivity].
  apply (leads_step _ _ 1 (DList 2)); [|reflexivity|now left]. eapply (leads_step _ _ 0); [constructor|reflexivity|now left].
Qed.
