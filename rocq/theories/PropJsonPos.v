(* PropJsonPos.v - C42: line and column. *)
From Coq Require String. Import String.StringSyntax.
From Verif Require Import Base Dec ModelJson ModelJsonW ModelJsonT SpecJson SpecJsonPos ProofJson6 ProofJsonPos PropJsonTok.
Local Open Scope N_scope.

(* what a column is: one plus the number of bytes since the last newline *)
Lemma column_start b : ~ In 10 b -> column b = 1 + N.of_nat (length b).
Proof.
  unfold column. generalize 1. induction b as [|c b IH]; intros k H; cbn [column_from length]; [lia|].
  destruct (N.eqb_spec c 10) as [->|]; [exfalso; apply H; now left|].
  rewrite IH; [lia|]. intro; apply H; now right.
Qed.
Lemma column_after a b : ~ In 10 b -> column (a ++ 10 :: b) = 1 + N.of_nat (length b).
Proof. intro H. unfold column. rewrite col_app. cbn. exact (column_start b H). Qed.

(* A reader that reports no error is where the consumed text ends, in line and in column;
   only one that has met the end of the input may be one column further.  The first error
   is where the text before the offending byte ends, counting that byte in the column and
   not in the line; an error met by reading past the end of the input is one column past it. *)
Theorem c42_line_and_column : forall (o : ropts) (s : str) (r : reader),
  o_comments o = false -> uses (reader_init o s) r ->
  (rerr r = None -> exists consumed, s = consumed ++ rin r /\ rline r = 1 + newlines consumed /\
     (rpos r = column consumed \/ (rfail r = true /\ rin r = [] /\ rpos r = column consumed + 1))) /\
  (forall err, rerr r = Some err -> exists before last,
     s = before ++ last ++ rin r /\ (length last <= 1)%nat /\ err_line err = 1 + newlines before /\
     (err_pos err = column before + N.of_nat (length last) \/
      (last = [] /\ rin r = [] /\ rfail r = true /\ err_pos err = column before + 1))).
Proof.
  intros o s r Ho Hu. apply uses_rsteps in Hu.
  assert (I0 : located s (reader_init o s)).
  { split; [discriminate|]. cbn. exists []. cbn. auto. }
  destruct (rs_tracks s _ _ Hu Ho I0) as (_ & I). split.
  - intro H. rewrite H in I. exact I.
  - intros err H. rewrite H in I. exact I.
Qed.
Print Assumptions c42_line_and_column.

Example c42_column_example :
  exists r t, next_tok (reader_init ropts_default ([10; 32; 10; 13; 32] ++ lit "?")) = Ok (t, r) /\
    rerr r = Some (mkErr (1 + newlines [10; 32; 10; 13; 32]) (column [10; 32; 10; 13; 32] + 1) (EChar 63)).
Proof. do 2 eexists. vm_compute. split; reflexivity. Qed.
