(* SpecJsonPos.v - columns (C42). *)
From Verif Require Import Base.
Local Open Scope N_scope.

(* the column after s when the text before it ended in column k: columns start at 1 and
   start again after each newline *)
Fixpoint column_from (k : N) (s : str) : N :=
  match s with [] => k | c :: s' => column_from (if c =? 10 then 1 else k + 1) s' end.
Definition column (s : str) : N := column_from 1 s.
