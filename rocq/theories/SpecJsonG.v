(* SpecJsonG.v - what callbacks given to the generic printer and parser do, one element
   at a time.  Of the model only the data types (reader, writer, options) are used. *)
From Verif Require Import Base ModelJson ModelJsonW SpecJson SpecJsonT.

(* ---- printing ---- *)
(* A writer with options wo and no error. *)
Definition fresh (wo : wopts) (w : writer) : Prop := wopt w = wo /\ werr w = false.
(* w can be indented n more levels (4096 blanks are all there are). *)
Definition fits (wo : wopts) (w : writer) (n : nat) : Prop :=
  w_pretty wo = true -> (windent w + N.of_nat n <= 1024)%N.

(* The callback appends one text of the document j, and the captured variables become s'. *)
Definition writes {S : Type} (wo : wopts) (d : dialect) (fn : writer -> outcome (S * writer)) (j : json) (s' : S) : Prop :=
  forall w, fresh wo w -> fits wo w (depth j) ->
  exists x, fn w = Ok (s', mkW (wout w ++ x) false (windent w) wo) /\
    forall rest, (is_number j -> num_stop rest) -> json_text d j (x ++ rest) rest.

(* [prints_items s ks kjs s']: asked in order, the elements ks are left out or printed, the
   printed ones are kjs, and the captured variables go from s to s'. *)
Inductive prints_items {K S : Type} (wo : wopts) (d : dialect)
    (pfn : K -> S -> writer -> outcome (S * writer)) (sfn : K -> S -> writer -> outcome bool)
  : S -> list K -> list (K * json) -> S -> Prop :=
| pi_nil s : prints_items wo d pfn sfn s [] [] s
| pi_skip s k ks kjs s' : (forall w, fresh wo w -> sfn k s w = Ok true) ->
    prints_items wo d pfn sfn s ks kjs s' -> prints_items wo d pfn sfn s (k :: ks) kjs s'
| pi_show s k j s1 ks kjs s' : (forall w, fresh wo w -> sfn k s w = Ok false) -> writes wo d (pfn k s) j s1 ->
    prints_items wo d pfn sfn s1 ks kjs s' -> prints_items wo d pfn sfn s (k :: ks) ((k, j) :: kjs) s'.

(* ---- parsing ---- *)
Definition token_of (a : atok) : token :=
  match a with
  | AObjS => TObjS | AObjE => TObjE | AArrS => TArrS | AArrE => TArrE | ASep => TSep | AKey => TKey
  | AStr _ => TStr | AInt _ => TInt | AFloat _ => TFloat | ABool b => TBool b | ANull => TNull
  end.
Definition token_text (a : atok) (b : str) : Prop :=
  match a with AStr s => b = s | AInt z => int_text z b | AFloat x => b = x | _ => True end.
(* A reader without error, with unread text s and look-ahead token t (TNone: none). *)
Definition reads_at (o : ropts) (s : str) (t : token) (r : reader) : Prop :=
  rin r = s /\ rerr r = None /\ rfail r = false /\ reof r = false /\ rtok r = t /\ ropt r = o.
(* What the reader gives next is the document j, then rest; the first token of j may
   have been taken by peekToken() already. *)
Definition at_value (o : ropts) (d : dialect) (j : json) (rest : str) (r : reader) : Prop :=
  (exists text, json_text d j text rest /\ reads_at o text TNone r) \/
  (exists a ts s, toks j = a :: ts /\ lexes d s ts rest /\ reads_at o s (token_of a) r /\ token_text a (rbuf r)).

(* The callback takes exactly the document j, and the captured variables become s'. *)
Definition takes {S : Type} (o : ropts) (d : dialect) (fn : reader -> outcome (S * reader)) (j : json) (s' : S) : Prop :=
  forall rest r, at_value o d j rest r -> exists r', fn r = Ok (s', r') /\ reads_at o rest TNone r'.

Inductive takes_items {S : Type} (o : ropts) (d : dialect) (fn : nat -> S -> reader -> outcome (S * reader))
  : nat -> S -> list json -> S -> Prop :=
| ti_nil i s : takes_items o d fn i s [] s
| ti_cons i s j js s1 s' : takes o d (fn i s) j s1 -> takes_items o d fn (Datatypes.S i) s1 js s' ->
    takes_items o d fn i s (j :: js) s'.
Inductive takes_members {S : Type} (o : ropts) (d : dialect) (fn : str -> S -> reader -> outcome (S * reader))
  : S -> list (str * json) -> S -> Prop :=
| tm_nil s : takes_members o d fn s [] s
| tm_cons s k j kjs s1 s' : takes o d (fn k s) j s1 -> takes_members o d fn s1 kjs s' ->
    takes_members o d fn s ((k, j) :: kjs) s'.
