(* ProofCfgJson.v - the loader does what the document says. *)
From Verif Require Import Base Dec SpecJson ProofJson3 ModelConfig SpecConfig ModelConfigStore SpecConfigStore PropConfig ModelCfgJson SpecCfgJson.
Local Open Scope outcome_scope.

Section Run.
  Context {V M : Type} (L : layer V M) (mk : maker V M) (f : nat).
  Implicit Types (c : cfg V M) (ts : list atok).

  Lemma obeys_app l1 : forall c l2, obeys L mk f c (l1 ++ l2) = do c1 <- obeys L mk f c l1; obeys L mk f c1 l2.
  Proof. induction l1 as [|s l1 IH]; intros c l2; [reflexivity|]. cbn. destruct (obey L mk f c s); cbn; auto. Qed.

  Lemma join_outcome p s : (exists q, path_join p s dot = Ok q) \/ path_join p s dot = Abort.
  Proof. unfold path_join. destruct (parse_f_outcome dot (Datatypes.S (length s)) p s ltac:(lia)) as [[A _]|[A _]]; auto. Qed.
  Lemma key_outcome s : (exists q, parse_key s = Ok q) \/ parse_key s = Abort.
  Proof. unfold parse_key. destruct s; auto. destruct (substr _ _ _); eauto. Qed.

  Definition then_ (x : outcome (cfg V M)) (rest : list atok) : outcome (cfg V M * list atok) := do c <- x; Ok (c, rest).
  Definition Val (n : nat) p c ts := let '(t, ts1) := next ts in lrun L mk f n (CVal p t) c ts1.
  Definition Lnk (n : nat) p c ts := let '(t, ts1) := next ts in lrun L mk f n (CLink p t) c ts1.

  Lemma then_app c l1 l2 rest : then_ (obeys L mk f c (l1 ++ l2)) rest = do c1 <- obeys L mk f c l1; then_ (obeys L mk f c1 l2) rest.
  Proof. unfold then_. rewrite obeys_app. destruct (obeys L mk f c l1); reflexivity. Qed.

  Lemma toks_not_end j : exists t ts, toks j = t :: ts /\ t <> AArrE /\ t <> AObjE.
  Proof. destruct j; cbn; do 2 eexists; (split; [reflexivity|split; discriminate]). Qed.
  Lemma sep_cons x y l : sep_by (x :: y :: l) = x ++ ASep :: sep_by (y :: l).
  Proof. reflexivity. Qed.
  Lemma toks_len j : 1 <= length (toks j).
  Proof. destruct (toks_not_end j) as (t & ts & E & _). rewrite E. cbn. lia. Qed.

  (* a value, then what follows *)
  Lemma links_run : forall j n p c rest, length (toks j) <= n -> Lnk n p c (toks j ++ rest) = then_ (obeys L mk f c (says_link p j)) rest.
  Proof.
    induction j as [|b|z|x|s|l IH|l IH] using json_ind'; intros n p c rest Hn; (destruct n as [|n]; [pose proof (toks_len); cbn in Hn; lia|]); unfold Lnk; try reflexivity.
    - cbn [toks app next lrun says_link obeys obey]. unfold then_, link_to. destruct (path_of s dot); cbn [bind]; [|reflexivity..]. destruct (clink L f c p a); reflexivity.
    - cbn [toks app next lrun]. rewrite <- app_assoc. 
      assert (G : forall l n i c, l <> [] -> Forall (fun j => forall n p c rest, length (toks j) <= n -> Lnk n p c (toks j ++ rest) = then_ (obeys L mk f c (says_link p j)) rest) l ->
        length (sep_by (map toks l)) + 1 <= n ->
        (let '(t, ts1) := next (sep_by (map toks l) ++ [AArrE] ++ rest) in lrun L mk f n (CLinks p i t) c ts1) =
        then_ (obeys L mk f c (from (fun i x => says_link (item p i) x) i l)) rest).
      { clear. induction l as [|x l IHl]; intros n i c Ne F Hn; [contradiction|]. inversion F as [|? ? Fx Fl]; subst.
        destruct n as [|n]; [lia|].
        assert (S1 : (let '(t, ts1) := next (sep_by (map toks (x :: l)) ++ [AArrE] ++ rest) in lrun L mk f (Datatypes.S n) (CLinks p i t) c ts1) =
          do (c1, ts1) <- Lnk n (item p i) c (sep_by (map toks (x :: l)) ++ [AArrE] ++ rest);
          match next ts1 with
          | (Some ASep, ts2) => let '(t1, ts3) := next ts2 in lrun L mk f n (CLinks p (Datatypes.S i) t1) c1 ts3
          | (Some AArrE, ts2) => Ok (c1, ts2)
          | _ => Abort
          end).
        { unfold Lnk. destruct (next (sep_by (map toks (x :: l)) ++ [AArrE] ++ rest)). reflexivity. }
        rewrite S1. clear S1. cbn [from]. rewrite then_app. destruct l as [|y l].
        - cbn [map sep_by] in *. rewrite Fx by lia. unfold then_. cbn [from obeys]. destruct (obeys L mk f c _); reflexivity.
        - cbn [map] in *. rewrite sep_cons in *. rewrite app_length in Hn. cbn [length] in Hn. pose proof (toks_len x). rewrite <- app_assoc, Fx by lia. unfold then_ at 1.
          destruct (obeys L mk f c (says_link (item p i) x)) as [c1| | | |]; try reflexivity. cbn [bind app next].
          apply (IHl n (Datatypes.S i) c1); [discriminate|exact Fl|lia]. }
      destruct l as [|x l]; [reflexivity|].
      cbn [toks length] in Hn. rewrite app_length in Hn. cbn [length] in Hn.
      change (says_link p (JArr (x :: l))) with (from (fun i x => says_link (item p i) x) 0 (x :: l)).
      rewrite <- (G (x :: l) n 0 c ltac:(discriminate) IH ltac:(lia)).
      assert (E : exists t ts, sep_by (map toks (x :: l)) = t :: ts /\ t <> AArrE).
      { destruct (toks_not_end x) as (t & ts & E & N1 & _). cbn [map]. destruct l; [cbn; rewrite E; eauto|]. cbn [map]. rewrite sep_cons, E. cbn. eauto. }
      destruct E as (t & ts & E & N1). rewrite E. cbn [app next]. destruct t; try contradiction; reflexivity.
  Qed.

  Lemma vals_run : forall j n p c rest, length (toks j) <= n -> Val n p c (toks j ++ rest) = then_ (obeys L mk f c (says p j)) rest.
  Proof.
    induction j as [|b|z|x|s|l IH|l IH] using json_ind'; intros n p c rest Hn; (destruct n as [|n]; [pose proof (toks_len); cbn in Hn; lia|]); unfold Val;
      try (cbn [toks app next lrun says obeys obey]; unfold then_, set_new, set_to; try reflexivity; match goal with |- context [cset ?a ?b ?c ?d ?e] => destruct (cset a b c d e) end; reflexivity).
    - cbn [toks app next lrun]. rewrite <- app_assoc.
      assert (G : forall l n i c, l <> [] -> Forall (fun j => forall n p c rest, length (toks j) <= n -> Val n p c (toks j ++ rest) = then_ (obeys L mk f c (says p j)) rest) l ->
        length (sep_by (map toks l)) + 1 <= n ->
        (let '(t, ts1) := next (sep_by (map toks l) ++ [AArrE] ++ rest) in lrun L mk f n (CItems p i t) c ts1) =
        then_ (obeys L mk f c (from (fun i x => says (item p i) x) i l)) rest).
      { clear. induction l as [|x l IHl]; intros n i c Ne F Hn; [contradiction|]. inversion F as [|? ? Fx Fl]; subst.
        destruct n as [|n]; [lia|].
        assert (S1 : (let '(t, ts1) := next (sep_by (map toks (x :: l)) ++ [AArrE] ++ rest) in lrun L mk f (Datatypes.S n) (CItems p i t) c ts1) =
          do (c1, ts1) <- Val n (item p i) c (sep_by (map toks (x :: l)) ++ [AArrE] ++ rest);
          match next ts1 with
          | (Some ASep, ts2) => let '(t1, ts3) := next ts2 in lrun L mk f n (CItems p (Datatypes.S i) t1) c1 ts3
          | (Some AArrE, ts2) => Ok (c1, ts2)
          | _ => Abort
          end).
        { unfold Val. destruct (next (sep_by (map toks (x :: l)) ++ [AArrE] ++ rest)). reflexivity. }
        rewrite S1. clear S1. cbn [from]. rewrite then_app. destruct l as [|y l].
        - cbn [map sep_by] in *. rewrite Fx by lia. unfold then_. cbn [from obeys]. destruct (obeys L mk f c _); reflexivity.
        - cbn [map] in *. rewrite sep_cons in *. rewrite app_length in Hn. cbn [length] in Hn. pose proof (toks_len x). rewrite <- app_assoc, Fx by lia. unfold then_ at 1.
          destruct (obeys L mk f c (says (item p i) x)) as [c1| | | |]; try reflexivity. cbn [bind app next].
          apply (IHl n (Datatypes.S i) c1); [discriminate|exact Fl|lia]. }
      destruct l as [|x l]; [destruct p as [|? [|]]; reflexivity|].
      cbn [toks length] in Hn. rewrite app_length in Hn. cbn [length] in Hn.
      assert (E : exists t ts, sep_by (map toks (x :: l)) = t :: ts /\ t <> AArrE /\ exists ts', toks x = t :: ts').
      { destruct (toks_not_end x) as (t & ts & E & N1 & _). cbn [map]. destruct l; [cbn; rewrite E; eauto 6|]. cbn [map]. rewrite sep_cons, E. cbn. eauto 6. }
      destruct E as (t & ts & E & N1 & ts' & Ex).
      assert (S2 : (match next (sep_by (map toks (x :: l)) ++ [AArrE] ++ rest) with
          | (Some AArrE, ts1) => Ok (c, ts1)
          | (t1, ts1) => do c1 <- (if Nat.eqb (length p) 1 then init_array L mk f c p t1 else Ok c); lrun L mk f n (CItems p 0 t1) c1 ts1
          end) = do c1 <- (if Nat.eqb (length p) 1 then init_array L mk f c p (Some t) else Ok c);
            let '(t, ts1) := next (sep_by (map toks (x :: l)) ++ [AArrE] ++ rest) in lrun L mk f n (CItems p 0 t) c1 ts1).
      { rewrite E. cbn [app next]. destruct t; try contradiction; reflexivity. }
      rewrite S2.
      change (says p (JArr (x :: l))) with (match p, x :: l with
    | [_], (JInt _ | JFloat _) :: _ => [Array_ p false]
    | [_], JStr _ :: _ => [Array_ p true]
    | [_], _ :: _ => [Error_]
    | _, _ => []
    end ++ from (fun i x => says (item p i) x) 0 (x :: l)).
      rewrite then_app.
      assert (S3 : (if Nat.eqb (length p) 1 then init_array L mk f c p (Some t) else Ok c) = obeys L mk f c
        match p with [_] => match x with JInt _ | JFloat _ => [Array_ p false] | JStr _ => [Array_ p true] | _ => [Error_] end | _ => [] end).
      { destruct p as [|p1 [|p2 p]]; try reflexivity. cbn [length Nat.eqb].
        destruct x; cbn in Ex; injection Ex as <- _; cbn [init_array obeys obey]; try reflexivity; unfold set_new, set_to; match goal with |- context [cset ?a ?b ?c ?d ?e] => destruct (cset a b c d e) end; reflexivity. }
      rewrite S3. match goal with |- bind ?a _ = bind ?b _ => replace b with a; [destruct a as [c1| | | |]; try reflexivity|destruct p as [|p1 [|p2 p]]; try reflexivity; destruct x; reflexivity] end.
      cbn [bind]. apply (G (x :: l) n 0 c1 ltac:(discriminate) IH ltac:(lia)).
    - cbn [toks app next lrun]. rewrite <- app_assoc.
      set (g := fun kv : str * json => AStr (fst kv) :: AKey :: toks (snd kv)) in *.
      set (h := fun kx : str * json => let (k, x) := kx in
      match parse_key k with
      | Ok (link, name, ty) =>
        match path_join p name 46%N with
        | Ok sub =>
          match ty, p with [], _ => [] | _, [] => [Typed_ sub ty] | _, _ => [Error_] end ++
          (if link : bool then says_link sub x else says sub x)
        | _ => [Error_]
        end
      | _ => [Error_]
      end).
      change (says p (JObj l)) with (flat_map h l).
      assert (G : forall l n c, l <> [] -> Forall (fun kx : str * json => forall n p c rest, length (toks (snd kx)) <= n -> Val n p c (toks (snd kx) ++ rest) = then_ (obeys L mk f c (says p (snd kx))) rest) l ->
        length (sep_by (map g l)) + 1 <= n ->
        (let '(t, ts1) := next (sep_by (map g l) ++ [AObjE] ++ rest) in lrun L mk f n (CFields p t) c ts1) =
        then_ (obeys L mk f c (flat_map h l)) rest).
      { clear. induction l as [|[k x] l IHl]; intros n c Ne F Hn; [contradiction|]. inversion F as [|? ? Fx Fl]; subst. cbn [snd] in Fx.
        destruct n as [|n]; [lia|].
        assert (S1 : forall r, (let '(t, ts1) := next (g (k, x) ++ r) in lrun L mk f (Datatypes.S n) (CFields p t) c ts1) =
          do lkt <- parse_key k;
            let '(lk, key, ty) := lkt in
            do sub <- path_join p key dot;
            do c1 <- match ty with
                     | [] => Ok c
                     | _ => match p with [] => set_typed L mk f c sub ty | _ => Abort end
                     end;
            do (c2, ts3) <- (if lk then Lnk n sub c1 (toks x ++ r) else Val n sub c1 (toks x ++ r));
            match next ts3 with
            | (Some ASep, ts4) => let '(t2, ts5) := next ts4 in lrun L mk f n (CFields p t2) c2 ts5
            | (Some AObjE, ts4) => Ok (c2, ts4)
            | _ => Abort
            end).
        { intro r. cbn [g fst snd app next lrun]. destruct (parse_key k) as [[[lk key] ty]| | | |]; cbn [bind]; try reflexivity.
          destruct (path_join p key dot) as [sub| | | |]; cbn [bind]; try reflexivity.
          match goal with |- bind ?a _ = bind ?b _ => destruct a; cbn [bind]; try reflexivity end.
          unfold Lnk, Val. destruct (next (toks x ++ r)). destruct lk; reflexivity. }
        assert (Hh : forall r, length (toks x) <= n -> 
          (let '(t, ts1) := next (g (k, x) ++ r) in lrun L mk f (Datatypes.S n) (CFields p t) c ts1) =
          do (c2, ts3) <- then_ (obeys L mk f c (h (k, x))) r;
            match next ts3 with
            | (Some ASep, ts4) => let '(t2, ts5) := next ts4 in lrun L mk f n (CFields p t2) c2 ts5
            | (Some AObjE, ts4) => Ok (c2, ts4)
            | _ => Abort
            end).
        { intros r Ln. rewrite S1. unfold h. destruct (key_outcome k) as [[[[lk key] ty] Ek]|Ek]; rewrite Ek; cbn [bind obeys obey then_]; [|reflexivity].
          destruct (join_outcome p key) as [[sub Es]|Es]; unfold dot in Es; change dot with 46%N; rewrite Es; cbn [bind obeys obey then_]; [|reflexivity].
          rewrite then_app. change dot with 46%N.
          assert (S2 : match ty with [] => Ok c | _ => match p with [] => set_typed L mk f c sub ty | _ => Abort end end =
            obeys L mk f c match ty, p with [], _ => [] | _, [] => [Typed_ sub ty] | _, _ => [Error_] end).
          { destruct ty; [destruct p; reflexivity|]. destruct p; [|reflexivity]. cbn [obeys obey]. unfold set_typed, set_new, set_to. destruct (mtype mk _ _); cbn [bind]; try reflexivity.
            match goal with |- ?a = _ => destruct a; reflexivity end. }
          rewrite S2. destruct (obeys L mk f c _) as [c1| | | |]; cbn [bind]; try reflexivity.
          destruct lk; [rewrite links_run by exact Ln|rewrite Fx by exact Ln]; reflexivity. }
        assert (Hg : length (g (k, x)) = 2 + length (toks x)) by reflexivity.
        cbn [flat_map]. rewrite then_app. destruct l as [|y l].
        - cbn [map sep_by] in *. rewrite Hh by lia. unfold then_. cbn [flat_map obeys]. destruct (obeys L mk f c _); reflexivity.
        - cbn [map] in *. rewrite sep_cons in *. rewrite app_length in Hn. cbn [length] in Hn. rewrite <- app_assoc, Hh by lia. unfold then_ at 1.
          destruct (obeys L mk f c (h (k, x))) as [c1| | | |]; try reflexivity. cbn [bind app next].
          apply (IHl n c1); [discriminate|exact Fl|lia]. }
      destruct l as [|[k x] l]; [reflexivity|].
      cbn [toks length] in Hn. fold g in Hn. rewrite app_length in Hn. cbn [length] in Hn.
      rewrite <- (G ((k, x) :: l) n c ltac:(discriminate) IH ltac:(lia)).
      cbn [map]. destruct l; reflexivity.
  Qed.

  (* only documents are accepted *)
  Definition field_toks (kv : str * json) : list atok := AStr (fst kv) :: AKey :: toks (snd kv).
  Definition accepted (k : lcall) (ts rest : list atok) : Prop :=
    match k with
    | CVal _ t | CLink _ t => exists t0 j, t = Some t0 /\ t0 :: ts = toks j ++ rest
    | CItems _ _ t | CLinks _ _ t => exists t0 l, t = Some t0 /\ l <> [] /\ t0 :: ts = sep_by (map toks l) ++ AArrE :: rest
    | CFields _ t => exists t0 l, t = Some t0 /\ l <> [] /\ t0 :: ts = sep_by (map field_toks l) ++ AObjE :: rest
    end.
  Lemma next_some ts t ts1 : next ts = (Some t, ts1) -> ts = t :: ts1.
  Proof. destruct ts; cbn; congruence. Qed.
  Lemma next_none ts ts1 : next ts = (None, ts1) -> ts = [] /\ ts1 = [].
  Proof. destruct ts; cbn; [intro H; injection H as <-; auto|congruence]. Qed.
  Lemma run_accepts : forall n k c ts c' rest, lrun L mk f n k c ts = Ok (c', rest) -> accepted k ts rest.
  Proof.
    induction n as [|n IH]; intros k c ts c' rest H; [discriminate|].
    destruct k as [p t|p i t|p t|p t|p i t]; cbn [lrun] in H.
    - destruct t as [[]|]; try discriminate.
      + destruct (next ts) as [t1 ts1] eqn:En. destruct t1 as [t1|].
        * apply next_some in En as ->.
          assert (O : t1 = AObjE /\ ts1 = rest \/ lrun L mk f n (CFields p (Some t1)) c ts1 = Ok (c', rest)).
          { destruct t1; auto. injection H as <- <-. auto. }
          destruct O as [[-> ->]|O]; [exists AObjS, (JObj []); auto|]. apply IH in O as (t0 & l & E & Ne & El). injection E as <-.
          exists AObjS, (JObj l). split; [reflexivity|]. cbn [toks app]. rewrite <- app_assoc. now rewrite El.
        * apply next_none in En as [-> ->]. apply IH in H as (t0 & l & E & _). discriminate.
      + destruct (next ts) as [t1 ts1] eqn:En. destruct t1 as [t1|].
        * apply next_some in En as ->.
          assert (O : t1 = AArrE /\ ts1 = rest \/ exists c1, lrun L mk f n (CItems p 0 (Some t1)) c1 ts1 = Ok (c', rest)).
          { destruct t1; try (right; apply bind_Ok in H as (c1 & _ & H); eauto; fail). left. injection H as <- <-. auto. }
          destruct O as [[-> ->]|[c1 O]]; [exists AArrS, (JArr []); auto|]. apply IH in O as (t0 & l & E & Ne & El). injection E as <-.
          exists AArrS, (JArr l). split; [reflexivity|]. cbn [toks app]. rewrite <- app_assoc. now rewrite El.
        * apply next_none in En as [-> ->]. apply bind_Ok in H as (c1 & _ & H). apply IH in H as (t0 & l & E & _). discriminate.
      + apply bind_Ok in H as (c1 & _ & H). injection H as <- <-. exists (AStr s), (JStr s). auto.
      + apply bind_Ok in H as (c1 & _ & H). injection H as <- <-. exists (AInt z), (JInt z). auto.
      + apply bind_Ok in H as (c1 & _ & H). injection H as <- <-. exists (AFloat x), (JFloat x). auto.
      + apply bind_Ok in H as (c1 & _ & H). injection H as <- <-. exists (ABool b), (JBool b). auto.
      + injection H as <- <-. exists ANull, JNull. auto.
    - apply bind_Ok in H as ([c1 ts1] & E1 & H). apply IH in E1 as (t0 & j & -> & E1).
      destruct (next ts1) as [t1 ts2] eqn:En. destruct t1 as [[]|]; try discriminate; apply next_some in En as ->.
      + injection H as <- <-. exists t0, [j]. split; [reflexivity|]. split; [discriminate|exact E1].
      + destruct (next ts2) as [t1 ts3] eqn:En. apply IH in H as (t2 & l & -> & Ne & El). apply next_some in En as ->.
        exists t0, (j :: l). split; [reflexivity|]. split; [discriminate|]. destruct l as [|y l]; [contradiction|]. cbn [map]. rewrite sep_cons, <- app_assoc, E1. cbn [app]. f_equal. f_equal. exact El.
    - destruct t as [[]|]; try discriminate. destruct (next ts) as [t1 ts1] eqn:En. destruct t1 as [[]|]; try discriminate. apply next_some in En as ->.
      apply bind_Ok in H as ([[lk key] ty] & _ & H). apply bind_Ok in H as (sub & _ & H). apply bind_Ok in H as (c1 & _ & H).
      destruct (next ts1) as [t1 ts2] eqn:En. apply bind_Ok in H as ([c2 ts3] & E2 & H).
      assert (E1 : exists t0 j, t1 = Some t0 /\ t0 :: ts2 = toks j ++ ts3) by (destruct lk; apply IH in E2; exact E2). clear E2.
      destruct E1 as (t0 & j & -> & E1). apply next_some in En as ->.
      destruct (next ts3) as [t1 ts4] eqn:En. destruct t1 as [[]|]; try discriminate; apply next_some in En as ->.
      + injection H as <- <-. exists (AStr s), [(s, j)]. split; [reflexivity|]. split; [discriminate|]. cbn [map sep_by field_toks fst snd app]. now rewrite E1.
      + destruct (next ts4) as [t1 ts5] eqn:En. apply IH in H as (t2 & l & -> & Ne & El). apply next_some in En as ->.
        exists (AStr s), ((s, j) :: l). split; [reflexivity|]. split; [discriminate|]. destruct l as [|y l]; [contradiction|]. cbn [map]. rewrite sep_cons. cbn [field_toks fst snd app]. rewrite <- app_assoc, E1. cbn [app]. do 4 f_equal. exact El.
    - destruct t as [[]|]; try discriminate.
      + destruct (next ts) as [t1 ts1] eqn:En. destruct t1 as [t1|].
        * apply next_some in En as ->.
          assert (O : t1 = AArrE /\ ts1 = rest \/ lrun L mk f n (CLinks p 0 (Some t1)) c ts1 = Ok (c', rest)).
          { destruct t1; auto. injection H as <- <-. auto. }
          destruct O as [[-> ->]|O]; [exists AArrS, (JArr []); auto|]. apply IH in O as (t0 & l & E & Ne & El). injection E as <-.
          exists AArrS, (JArr l). split; [reflexivity|]. cbn [toks app]. rewrite <- app_assoc. now rewrite El.
        * apply next_none in En as [-> ->]. apply IH in H as (t0 & l & E & _). discriminate.
      + apply bind_Ok in H as (c1 & _ & H). injection H as <- <-. exists (AStr s), (JStr s). auto.
    - apply bind_Ok in H as ([c1 ts1] & E1 & H). apply IH in E1 as (t0 & j & -> & E1).
      destruct (next ts1) as [t1 ts2] eqn:En. destruct t1 as [[]|]; try discriminate; apply next_some in En as ->.
      + injection H as <- <-. exists t0, [j]. split; [reflexivity|]. split; [discriminate|exact E1].
      + destruct (next ts2) as [t1 ts3] eqn:En. apply IH in H as (t2 & l & -> & Ne & El). apply next_some in En as ->.
        exists t0, (j :: l). split; [reflexivity|]. split; [discriminate|]. destruct l as [|y l]; [contradiction|]. cbn [map]. rewrite sep_cons, <- app_assoc, E1. cbn [app]. f_equal. f_equal. exact El.
  Qed.
End Run.
