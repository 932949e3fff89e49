(* ModelJsonG.v - src/utils/json/printer.tcc and traits.cpp: printing with callbacks
   that have state of their own, and combining json traits.

   ModelJsonW has the same printObject and printArray for the callbacks of printer.cpp,
   which only use the writer; [c75_no_state_object] and [c75_no_state_array] in
   PropJsonGen say that these are the special case without state. *)
From Coq Require String. Import String.StringSyntax.
From Verif Require Import Base Dec ModelJson ModelJsonW ModelJsonT.
Local Open Scope outcome_scope.

(* printer.tcc 32-48: the loop of printObject.  The variables printFn captures are the
   state S; skipFn may look at them and at the writer.  The first result tells if the
   loop was not left by the return of line 34. *)
Fixpoint gobject_loop {S : Type} (first : bool) (keys : list str)
    (pfn : str -> S -> writer -> outcome (S * writer)) (sfn : str -> S -> writer -> outcome bool)
    (s : S) (w : writer) : outcome (bool * S * writer) :=
  match keys with
  | [] => Ok (true, s, w)
  | k :: ks =>
    if negb (wok w) then Ok (false, s, w) else
    do sk <- sfn k s w;
    if sk then gobject_loop first ks pfn sfn s w else
    do w1 <- (if first then Ok w else wnewline (push (lit ",") w));
    do w2 <- format_string k w1;
    do (s1, w3) <- pfn k s (wspace (push (lit ":") w2));
    gobject_loop false ks pfn sfn s1 w3
  end.

(* printer.tcc 21-57: printObject *)
Definition gprint_object {S : Type} (keys : list str)
    (pfn : str -> S -> writer -> outcome (S * writer)) (sfn : str -> S -> writer -> outcome bool)
    (s : S) (w : writer) : outcome (S * writer) :=
  let w0 := push (lit "{") w in
  do w1 <- (if (1 <? length keys)%nat then wnewline (indent w0) else Ok (wspace w0));
  do (fin, s1, w2) <- gobject_loop true keys pfn sfn s w1;
  if negb fin then Ok (s1, w2) else
  do w3 <- (if (1 <? length keys)%nat then wnewline (unindent w2) else Ok (wspace w2));
  Ok (s1, push (lit "}") w3).

(* printer.tcc 78-89: the loop of printArray for the k indexes from i on *)
Fixpoint garray_loop {S : Type} (first : bool) (i k : nat)
    (pfn : nat -> S -> writer -> outcome (S * writer)) (sfn : nat -> S -> writer -> outcome bool)
    (s : S) (w : writer) : outcome (bool * S * writer) :=
  match k with
  | O => Ok (true, s, w)
  | Datatypes.S k' =>
    if negb (wok w) then Ok (false, s, w) else
    do sk <- sfn i s w;
    if sk then garray_loop first (Datatypes.S i) k' pfn sfn s w else
    do w1 <- (if first then Ok w else wnewline (push (lit ",") w));
    do (s1, w2) <- pfn i s w1;
    garray_loop false (Datatypes.S i) k' pfn sfn s1 w2
  end.

(* printer.tcc 66-98: printArray *)
Definition gprint_array {S : Type} (n : nat)
    (pfn : nat -> S -> writer -> outcome (S * writer)) (sfn : nat -> S -> writer -> outcome bool)
    (s : S) (w : writer) : outcome (S * writer) :=
  let w0 := push (lit "[") w in
  do w1 <- (if (1 <? n)%nat then wnewline (indent w0) else Ok (wspace w0));
  do (fin, s1, w2) <- garray_loop true 0 n pfn sfn s w1;
  if negb fin then Ok (s1, w2) else
  do w3 <- (if (1 <? n)%nat then wnewline (unindent w2) else Ok (wspace w2));
  Ok (s1, push (lit "]") w3).

(* traits.h 17-28: Traits *)
Record jtraits := mkT { t_skip : bool; t_skipempty : bool; t_alias : str; t_parser : str; t_printer : str }.

(* traits.cpp 14: the default constructor sets skip only; junk is the value the
   uninitialised skipEmpty happens to have. *)
Definition traits_new (junk : bool) : jtraits := mkT false junk [] [] [].

(* traits.cpp 16-30: operator|.  Simplified: reading the uninitialised skipEmpty (here
   and when a Traits is copied) is formally undefined; it is an arbitrary value here. *)
Definition traits_or (a b : jtraits) : jtraits :=
  mkT (t_skip a || t_skip b) (t_skipempty a || t_skipempty b)
      (match t_alias a with [] => t_alias b | s => s end)
      (match t_parser a with [] => t_parser b | s => s end)
      (match t_printer a with [] => t_printer b | s => s end).

(* traits.cpp 32-37, 39-44, 46-51, 53-59 *)
Definition tr_skip (junk : bool) : jtraits := let t := traits_new junk in
  mkT true (t_skipempty t) (t_alias t) (t_parser t) (t_printer t).
Definition tr_skipempty (junk : bool) : jtraits := let t := traits_new junk in
  mkT (t_skip t) true (t_alias t) (t_parser t) (t_printer t).
Definition tr_alias (junk : bool) (a : str) : jtraits := let t := traits_new junk in
  mkT (t_skip t) (t_skipempty t) a (t_parser t) (t_printer t).
Definition tr_custom (junk : bool) (ps pr : str) : jtraits := let t := traits_new junk in
  mkT (t_skip t) (t_skipempty t) (t_alias t) ps pr.

(* parser.cpp 207-212, printer.cpp 243-251: a field of a reflected type with this json
   trait, as the parsers and printers see it (without custom functions) *)
Definition traits_field (key : str) (type : nat) (t : jtraits) : field :=
  mkF key type (t_skip t) (t_alias t) (t_skipempty t).
