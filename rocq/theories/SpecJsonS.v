(* SpecJsonS.v - what the properties on the depth of reading talk about, independently of
   the code: how deep a document nests, and how many brackets a text opens. *)
From Verif Require Import Base SpecJson.

(* levels of a value: a scalar is one, an array or an object one more than its deepest
   item *)
Fixpoint depth (j : json) : nat :=
  match j with
  | JArr l => S (list_max (map depth l))
  | JObj l => S (list_max (map (fun kv => depth (snd kv)) l))
  | _ => 1
  end.

(* bytes that open an array or an object, wherever they are in the text *)
Definition opening (c : byte) : bool := ((c =? 91) || (c =? 123))%N.
Definition brackets (s : str) : nat := length (filter opening s).

(* { "xx...x" : [[...[]...]] } with k letters and n + 1 brackets *)
Definition deep_text (k n : nat) : str :=
  ([123; 34] ++ repeat 120 k ++ [34; 58] ++ repeat 91 (S n) ++ repeat 93 (S n) ++ [125])%N.
Fixpoint nest (n : nat) : json := match n with O => JArr [] | S n' => JArr [nest n'] end.
Definition deep_json (k n : nat) : json := JObj [(repeat 120%N k, nest n)].
