(* ProofDump.v - the printed descriptions have the layout of SpecDump (C83). *)
From Coq Require String. Import String.StringSyntax.
From Coq Require Import Permutation Sorted.
From Verif Require Import Base ModelCore ModelScope ModelDump SpecCore SpecScope PropPrint SpecDump ProofCore.
Local Open Scope outcome_scope.

(* lines, each with its newline *)
Definition out (m : nat) (ls : list line) : str := flat_map (fun l => line_text m l ++ nl) ls.
Lemma out_app m a b : out m (a ++ b) = out m a ++ out m b.
Proof. apply flat_map_app. Qed.
Lemma out_cons m l ls : out m (l :: ls) = line_text m l ++ nl ++ out m ls.
Proof. unfold out. cbn [flat_map]. now rewrite <- app_assoc. Qed.
Lemma out_joined m ls : ls <> [] -> out m ls = joined (map (line_text m) ls) ++ nl.
Proof.
  induction ls as [|l [|l2 ls] IH]; intro Hn; [congruence| |].
  - rewrite out_cons. reflexivity.
  - rewrite out_cons, IH by discriminate. cbn [map joined]. now rewrite <- !app_assoc.
Qed.
Lemma each_out {A B} (fn : A -> outcome str) (R : A -> B -> Prop) (g : B -> list line) m l ys :
  (forall x y, In x l -> R x y -> fn x = Ok (out m (g y))) -> Forall2 R l ys -> each fn l = Ok (out m (concat (map g ys))).
Proof.
  intros Hf Hl. induction Hl as [|x y l ys H Hl IH]; [reflexivity|]. cbn [each map concat]. rewrite (Hf x y) by (auto; now left). cbn [bind].
  rewrite IH by (intros; apply Hf; auto; now right). cbn [bind]. now rewrite out_app.
Qed.
Lemma concat_single {A B} (f : A -> B) l : concat (map (fun x => [f x]) l) = map f l.
Proof. induction l as [|x l IH]; cbn; [reflexivity|]. now rewrite IH. Qed.

Lemma arg_says_print H a s : arg_says H a s -> print_arg H a = Ok (arg_text s).
Proof. intros (t & E & ->). unfold print_arg. rewrite E. reflexivity. Qed.
Lemma args_print H l ss : Forall2 (arg_says H) l ss -> forall first, print_args H first l =
  Ok (match ss with [] => [] | _ => (if first then [] else lit ", ") ++ comma_list (map arg_text ss) end).
Proof.
  induction 1 as [|a s l ss Ha Hl IH]; intro first; [reflexivity|]. cbn [print_args]. rewrite (arg_says_print _ _ _ Ha). cbn [bind].
  rewrite IH. cbn [bind]. f_equal. f_equal. destruct ss; cbn [map comma_list]; [now rewrite app_nil_r|reflexivity].
Qed.
Lemma fn_says_print H f g : fn_says H f g -> signature H (f_ret f) (f_args f) = Ok (sig_text g).
Proof.
  intros [Hr Ha]. unfold signature. rewrite (arg_says_print _ _ _ Hr). cbn [bind]. rewrite (args_print _ _ _ Ha). cbn [bind].
  unfold sig_text. destruct (gs_args g); reflexivity.
Qed.
Lemma traits_same l : traits_print l = traits_text l.
Proof. unfold traits_print, traits_text. now rewrite flat_map_concat_map. Qed.
Lemma field_says_print H f s : field_says H f s -> field_print H f = Ok (field_text s).
Proof.
  intros (t & E & ->). unfold field_print. rewrite E. unfold field_text. cbn [fs_offset fs_type fs_name fs_traits]. rewrite traits_same.
  destruct (fd_traits f); reflexivity.
Qed.
Lemma out_at m d s : out m [At d s] = pad (m + 4 * d) ++ s ++ nl.
Proof. unfold out. cbn [flat_map line_text]. now rewrite app_nil_r, <- app_assoc. Qed.
Lemma traits_out m d l : out m (traits_lines d l) = if nonempty l then pad (m + 4 * d) ++ traits_print l ++ nl else [].
Proof. destruct l as [|x l]; [reflexivity|]. cbn [nonempty]. unfold traits_lines. now rewrite out_at, traits_same. Qed.
Definition fn_lines (d : nat) (o : osum) : list line :=
  At d (os_name o ++ lit ":") :: traits_lines (d + 1) (os_traits o) ++ map (fun g => At (d + 1) (sig_text g)) (os_sigs o).
Lemma overloads_out H traits m d no s : fns_say H traits no s ->
  overloads_print H (traits (fst no)) (m + 4 * d) (snd no) =
    Ok (out m (traits_lines d (os_traits s) ++ map (fun g => At d (sig_text g)) (os_sigs s))).
Proof.
  intros (A & B & C). unfold overloads_print.
  rewrite (each_out _ (fn_says H) (fun g => [At d (sig_text g)]) m _ _) with (2 := C).
  - cbn [bind]. now rewrite concat_single, out_app, traits_out, <- B.
  - intros f g _ Hf. rewrite (fn_says_print _ _ _ Hf). cbn [bind]. now rewrite out_at.
Qed.
Lemma fns_out H traits m d l ys : Forall2 (fns_say H traits) l ys ->
  each (fun no : str * overloads => do s <- overloads_print H (traits (fst no)) (m + 4 * d + 8) (snd no);
          Ok (pad (m + 4 * d + 4) ++ fst no ++ lit ":" ++ nl ++ s)) l = Ok (out m (fns_lines (d + 1) ys)).
Proof.
  intro Hl. apply (each_out _ (fns_say H traits) (fn_lines (d + 1))); auto.
  intros no s _ Hs. replace (m + 4 * d + 8) with (m + 4 * (d + 1 + 1)) by lia. rewrite (overloads_out _ _ _ _ _ _ Hs). cbn [bind].
  f_equal. unfold fn_lines. rewrite out_cons. cbn [line_text]. rewrite <- (proj1 Hs). replace (m + 4 * d + 4) with (m + 4 * (d + 1)) by lia. unfold pad. now rewrite <- !app_assoc.
Qed.

Lemma fields_exist H l : (forall f, In f l -> arg_valid H (fd_arg f)) -> exists fs, Forall2 (field_says H) l fs.
Proof.
  induction l as [|f l IH]; intro Hv; [exists []; constructor|]. destruct IH as (fs & Hf); [intros; apply Hv; now right|].
  destruct (valid_tget H _ (Hv f (or_introl eq_refl))) as (t & Et). eexists (_ :: fs). constructor; [|exact Hf]. exists t. split; [exact Et|reflexivity].
Qed.
Lemma arg_says_exist H a : arg_valid H a -> exists s, arg_says H a s.
Proof. intro V. destruct (valid_tget H _ V) as (t & Et). eexists. exists t. split; [exact Et|reflexivity]. Qed.
Lemma fn_says_exist H f : fn_valid H f -> exists s, fn_says H f s.
Proof.
  intros [Vr Va]. destruct (arg_says_exist _ _ Vr) as (r & Hr).
  assert (exists l, Forall2 (arg_says H) (f_args f) l) as (l & Hl).
  { induction Va as [|a l V Va IH]; [exists []; constructor|]. destruct IH as (ss & Hs). destruct (arg_says_exist _ _ V) as (s & Hsa). exists (s :: ss). now constructor. }
  exists (GSum r l). split; auto.
Qed.
Lemma overload_says_exist H o : (forall f, In f o -> fn_valid H f) -> exists l, Forall2 (fn_says H) o l.
Proof.
  induction o as [|f o IH]; intro Hv; [exists []; constructor|]. destruct IH as (l & Hl); [intros; apply Hv; now right|].
  destruct (fn_says_exist H f (Hv f (or_introl eq_refl))) as (s & Hs). exists (s :: l). now constructor.
Qed.
Lemma fns_exist H traits (l : list (str * overloads)) : (forall n o f, In (n, o) l -> In f o -> fn_valid H f) -> exists ys, Forall2 (fns_say H traits) l ys.
Proof.
  induction l as [|[n o] l IH]; intro Hv; [exists []; constructor|]. destruct IH as (ys & Hy); [intros n0 o0 f0 Hn Hf; apply (Hv n0 o0 f0); [now right|exact Hf]|].
  destruct (overload_says_exist H o) as (g & Hg). { intros f Hf. apply (Hv n o); auto. now left. }
  exists (OSum n (traits n) g :: ys). constructor; auto. repeat split; auto.
Qed.

(* the four sections of a type *)
Definition secs (gap : line) (a b c d : list line) : list line :=
  a ++ (if nonempty b then if nonempty a then [gap] else [] else []) ++ b ++
  (if nonempty c then if nonempty a || nonempty b then [gap] else [] else []) ++ c ++
  (if nonempty d then if nonempty a || nonempty b || nonempty c then [gap] else [] else []) ++ d.
Lemma sections4 gap a b c d : sections gap [a; b; c; d] = secs gap a b c d.
Proof.
  unfold secs. destruct a as [|a0 a], b as [|b0 b], c as [|c0 c], d as [|d0 d]; cbn [sections nonempty orb app]; rewrite ?app_nil_r; try reflexivity;
    repeat (cbn [app]; rewrite <- ?app_assoc); reflexivity.
Qed.
Lemma nonempty_Forall2 {A B} (R : A -> B -> Prop) l l' : Forall2 R l l' -> nonempty l = nonempty l'.
Proof. destruct 1; reflexivity. Qed.
Lemma nonempty_map {A B} (f : A -> B) l : nonempty (map f l) = nonempty l.
Proof. destruct l; reflexivity. Qed.
Lemma nonempty_traits d l : nonempty (traits_lines d l) = nonempty l.
Proof. destruct l; reflexivity. Qed.
Lemma nonempty_fns d l : nonempty (fns_lines d l) = nonempty l.
Proof. destruct l; reflexivity. Qed.
Lemma nonempty_perm {A} (l l' : list A) : Permutation l l' -> nonempty l = nonempty l'.
Proof. intro P. apply Permutation_length in P. destruct l, l'; cbn in *; congruence. Qed.
Lemma nonempty_type d ts : nonempty (type_lines d ts) = true.
Proof. destruct ts. reflexivity. Qed.

Lemma type_text D H : wf_heap H -> members_valid H -> sorts D -> forall n T, dbound n H T -> valid H T ->
  exists ts, says D H T ts /\ forall m d, exists s, type_print_f n D H (m + 4 * d) T = Ok s /\ s ++ nl = out m (type_lines d ts).
Proof.
  intros Hw Hm Hs. induction n as [|n IH]; intros T Hb Hv; [destruct Hb|].
  destruct (valid_tget H T Hv) as (t & Et). destruct (Hm T t Et) as [Mf Mo].
  assert (HP : exists p, parent_says D H (t_parent t) p /\ forall m d, exists s,
    match t_parent t with None => Ok [] | Some q => do s <- type_print_f n D H (m + 4 * d + 4) q; Ok (s ++ nl) end = Ok s /\
    s = out m (match p with Some ps => type_lines (d + 1) ps | None => [] end)).
  { destruct (t_parent t) as [q|] eqn:Ep.
    - assert (L : link H T q) by (exists t; auto).
      destruct (IH q) as (ps & S1 & S2). { apply Hb; auto. } { eapply wf_links; eauto. }
      exists (Some ps). split; [now constructor|]. intros m d. destruct (S2 m (d + 1)) as (s & E1 & E2).
      replace (m + 4 * d + 4) with (m + 4 * (d + 1)) by lia. exists (s ++ nl). rewrite E1. cbn [bind]. auto.
    - exists None. split; [constructor|]. intros m d. exists []. split; reflexivity. }
  destruct HP as (p & P1 & P2). destruct (Hs (map snd (t_fields t))) as [Q1 Q2].
  destruct (fields_exist H (sort_fields D (map snd (t_fields t)))) as (fs & Hfs).
  { intros f Hf. eapply Permutation_in in Hf; [|exact Q1]. apply in_map_iff in Hf as ([k g] & <- & Hf). eapply Mf; eauto. }
  destruct (fns_exist H (ov_traits D T) (t_fns t) Mo) as (os & Hos).
  exists (TSum (t_id t) p (t_traits t) fs os). split.
  { econstructor; eauto. split; auto. }
  intros m d. destruct (P2 m d) as (ps & E1 & E2). cbn [type_print_f]. rewrite Et, E1. cbn [bind].
  rewrite (each_out _ (field_says H) (fun f => [At (d + 1) (field_text f)]) m) with (2 := Hfs).
  2:{ intros f s _ Hf. rewrite (field_says_print _ _ _ Hf). cbn [bind]. rewrite out_at. replace (m + 4 * d + 4) with (m + 4 * (d + 1)) by lia. reflexivity. }
  cbn [bind]. rewrite (fns_out H (ov_traits D T) m d _ _ Hos). cbn [bind]. eexists. split; [reflexivity|].
  rewrite concat_single. cbn [type_lines]. rewrite sections4. unfold secs.
  rewrite nonempty_traits, nonempty_map, nonempty_fns.
  assert (NP : nonempty (match p with Some ps => type_lines (d + 1) ps | None => [] end) = match t_parent t with Some _ => true | None => false end).
  { inversion P1; [reflexivity|]. apply nonempty_type. }
  rewrite NP, <- (nonempty_Forall2 _ _ _ Hfs), <- (nonempty_Forall2 _ _ _ Hos), (nonempty_perm _ _ Q1), nonempty_map.
  rewrite !out_app. cbn [app]. rewrite !out_cons, traits_out, <- E2. cbn [line_text].
  change (out m []) with ([] : str).
  assert (GP : forall a b : bool, out m (if a then if b then [At (d + 1) []] else [] else []) = if a then if b then pad (m + 4 * d + 4) ++ nl else [] else []).
  { intros [] []; try reflexivity. rewrite out_at. cbn [app]. f_equal. f_equal. lia. }
  rewrite !GP. replace (m + 4 * (d + 1)) with (m + 4 * d + 4) by lia. unfold pad. rewrite ?app_nil_r, <- !app_assoc. cbn [app]. reflexivity.
Qed.

(* ---- scopes ---- *)
Lemma sections3 gap a b c : sections gap [a; b; c] =
  a ++ (if nonempty a && (nonempty b || nonempty c) then [gap] else []) ++ b ++ (if nonempty b && nonempty c then [gap] else []) ++ c.
Proof.
  destruct a as [|a0 a], b as [|b0 b], c as [|c0 c]; cbn [sections nonempty orb andb app]; rewrite ?app_nil_r; try reflexivity;
    repeat (cbn [app]; rewrite <- ?app_assoc); reflexivity.
Qed.
Lemma flat_out {A} (f : A -> str) (g : A -> line) m l : (forall x, f x = out m [g x]) -> flat_map f l = out m (map g l).
Proof. intro Hf. induction l as [|x l IH]; [reflexivity|]. cbn [flat_map map]. rewrite out_cons, IH, Hf. unfold out. cbn [flat_map]. now rewrite app_nil_r, <- app_assoc. Qed.
Lemma nonempty_scope d c : nonempty (scope_lines d c ++ [Gap]) = true.
Proof. destruct c. reflexivity. Qed.

Lemma scope_text D H S : wf_scopes S -> scope_members_valid H S -> forall n p, p < length S -> length S <= n + p ->
  exists ss, scope_says D H S p ss /\ forall m d, scope_print_f n D H S (m + 4 * d) p = Ok (out m (scope_lines d ss)).
Proof.
  intros Hw Hm. induction n as [|n IH]; intros p Hp Hn; [lia|].
  destruct (sget S p) as [s|] eqn:Es. 2:{ apply nth_error_None in Es. lia. }
  destruct (fns_exist H (sc_ov_traits D p) (s_fns s) (Hm p s Es)) as (os & Hos).
  assert (HC : exists cs, scopes_say D H S (s_scopes s) cs /\ nonempty cs = nonempty (s_scopes s) /\ forall m d,
    each (fun kc : str * sptr => do s <- scope_print_f n D H S (m + 4 * d + 4) (snd kc); Ok (s ++ nl)) (s_scopes s) =
      Ok (out m (concat (map (fun c => scope_lines (d + 1) c ++ [Gap]) cs)))).
  { assert (K : forall k q, In (k, q) (s_scopes s) -> p < q < length S).
    { intros k q Hk. destruct (ws_child S Hw p s k q Es Hk) as [L (sj & Ej & _)]. split; [exact L|].
      apply nth_error_Some. unfold sget in Ej. congruence. }
    revert K. induction (s_scopes s) as [|[k q] l IHl]; intro K.
    - exists []. split; [constructor|]. split; [reflexivity|]. intros; reflexivity.
    - destruct IHl as (cs & C1 & C0 & C2); [intros; eapply K; right; eauto|]. destruct (K k q (or_introl eq_refl)) as [L1 L2].
      destruct (IH q L2) as (c & S1 & S2); [lia|]. exists (c :: cs). split; [now constructor|]. split; [reflexivity|].
      intros m d. cbn [each snd map concat]. replace (m + 4 * d + 4) with (m + 4 * (d + 1)) in * by lia. rewrite S2. cbn [bind].
      specialize (C2 m d). replace (m + 4 * d + 4) with (m + 4 * (d + 1)) in C2 by lia. rewrite C2. cbn [bind]. rewrite !out_app. now rewrite <- !app_assoc. }
  destruct HC as (cs & C1 & C0 & C2). exists (SSum (s_name s) (sc_traits D p) os (map fst (s_types s)) cs). split; [now constructor|].
  intros m d. cbn [scope_print_f]. rewrite Es. rewrite (fns_out H (sc_ov_traits D p) m d _ _ Hos). cbn [bind]. rewrite C2. cbn [bind]. f_equal.
  cbn [scope_lines]. rewrite sections3, nonempty_fns, !nonempty_map, !out_app. cbn [app]. rewrite !out_cons, traits_out. cbn [line_text].
  change (out m []) with ([] : str).
  assert (NC : nonempty (concat (map (fun c => scope_lines (d + 1) c ++ [Gap]) cs)) = nonempty (s_scopes s)).
  { rewrite <- C0. destruct cs as [|c cs]; [reflexivity|]. cbn [map concat nonempty]. pose proof (nonempty_scope (d + 1) c) as X.
    destruct (scope_lines (d + 1) c ++ [Gap]); [discriminate|reflexivity]. }
  rewrite NC, <- (nonempty_Forall2 _ _ _ Hos).
  assert (GP : forall a : bool, out m (if a then [At d []] else []) = if a then pad (m + 4 * d) ++ nl else []).
  { intros []; try reflexivity. rewrite out_at. reflexivity. }
  rewrite !GP. rewrite map_map. rewrite (flat_out _ (fun kt : str * option tptr => At (d + 1) (lit "type " ++ fst kt ++ lit ";")) m).
  2:{ intros [k x]. rewrite out_at. replace (m + 4 * d + 4) with (m + 4 * (d + 1)) by lia. cbn [fst]. now rewrite <- !app_assoc. }
  replace (m + 4 * (d + 1)) with (m + 4 * d + 4) by lia. unfold pad. rewrite <- !app_assoc. cbn [app]. rewrite ?app_nil_r. reflexivity.
Qed.
