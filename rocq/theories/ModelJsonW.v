(* ModelJsonW.v - src/utils/json: Writer, format.cpp and the generic printer.

   Simplifications: the stream is a std::ostringstream, which never fails; an error
   is a flag (the text of the message is dropped); snprintf("%ld") and
   snprintf("\\u%04x") are given by their documented output, which always fits the
   128 byte buffer, so the "buffer too small" branch of format.cpp 36-39 is dead. *)
From Coq Require String. Import String.StringSyntax.
From Verif Require Import Base Dec ModelJson.
Local Open Scope outcome_scope.
Local Open Scope N_scope.

(* writer.h 19-28: Options *)
Record wopts := mkWO { w_pretty : bool; w_compact : bool; w_escape : bool; w_validate : bool }.
Definition wopts_default : wopts := mkWO false false true true.   (* writer.h 27 *)

(* writer.h 17-66: Writer *)
Record writer := mkW { wout : str; werr : bool; windent : N; wopt : wopts }.
(* writer.h 30-34 *)
Definition writer_init (o : wopts) : writer := mkW [] false 0 o.

(* writer.h 36 *)
Definition wok (w : writer) : bool := negb (werr w).

(* writer.h 42-44 *)
Definition push (s : str) (w : writer) : writer := mkW (wout w ++ s) (werr w) (windent w) (wopt w).
(* writer.tcc 16-22 *)
Definition werror (w : writer) : writer := mkW (wout w) true (windent w) (wopt w).
(* writer.h 53-54; size_t arithmetic never wraps: each unindent follows an indent *)
Definition indent (w : writer) : writer := mkW (wout w) (werr w) (windent w + 1) (wopt w).
Definition unindent (w : writer) : writer := mkW (wout w) (werr w) (windent w - 1) (wopt w).

(* writer.cpp 15-20 *)
Definition wspace (w : writer) : writer := if w_pretty (wopt w) then push [32] w else w.

(* writer.cpp 13, 22-30: the blanks come from a string of 4096 of them; asking for
   more reads past its end *)
Definition wnewline (w : writer) : outcome writer :=
  if w_pretty (wopt w) then
    if 4096 <? windent w * 4 then UB
    else Ok (push (repeat 32 (N.to_nat (windent w * 4))) (push [10] w))
  else Ok w.

(* format.cpp 13-17, 19-26 *)
Definition format_null (w : writer) : writer := push (lit "null") w.
Definition format_bool (b : bool) (w : writer) : writer :=
  push (if b then lit "true" else lit "false") w.

(* "%ld" *)
Definition show_int (z : Z) : str :=
  if (z <? 0)%Z then 45 :: dec (Z.to_N (- z)) else dec (Z.to_N z).
(* format.cpp 46-49 *)
Definition format_int (z : Z) (w : writer) : writer := push (show_int z) w.

(* "%x": lower case hexadecimal digits, most significant first *)
Definition hexchar (v : N) : byte := if v <? 10 then 48 + v else 87 + v.
Fixpoint hexs (fuel : nat) (n : N) : str :=
  match fuel with
  | O => []
  | S f => if n <? 16 then [hexchar n] else hexs f (n / 16) ++ [hexchar (n mod 16)]
  end.
(* "\\u%04x" of a uint32_t (at most 8 digits) *)
Definition show_u (code : N) : str :=
  let h := hexs 8 code in
  [92; 117] ++ repeat 48 (4 - length h)%nat ++ h.

(* format.cpp 66-69: the continuation loop of escapeUnicode; s is value.substr(i).
   Reading value[i] past the end is excluded by the error of line 60; it would be
   undefined (UB here). *)
Fixpoint esc_loop (n : nat) (code : N) (s : str) (w : writer) : outcome (N * str * writer) :=
  match n with
  | O => Ok (code, s, w)
  | S n' =>
    if wok w then
      match s with
      | [] => UB
      | c :: s' =>
        let w1 := if N.land c 0xC0 =? 0x80 then w else werror w in
        esc_loop n' (N.lor (N.shiftl code 6) (N.land c 0x3F)) s' w1
      end
    else Ok (code, s, w)
  end.

(* format.cpp 56-74: escapeUnicode on value.substr(i) = c :: s; returns what is left
   of the string *)
Definition escape_unicode (c : byte) (s : str) (w : writer) : outcome (str * writer) :=
  match lead_ones c with
  | None => UB
  | Some bytes =>
    let w1 := if (4 <? bytes) || (bytes <? 2) then werror w else w in
    let w2 := if N.of_nat (length (c :: s)) <? bytes then werror w1 else w1 in
    let code := N.land c (N.shiftl 1 (8 - (bytes + 1)) - 1) in
    do (code1, s1, w3) <- esc_loop (N.to_nat (bytes - 1)) code s w2;
    Ok (s1, push (show_u code1) w3)
  end.

(* format.cpp 87-91: the continuation loop of readUnicode *)
Fixpoint raw_loop (n : nat) (code : N) (s : str) (w : writer) : outcome (N * str * writer) :=
  match n with
  | O => Ok (code, s, w)
  | S n' =>
    if wok w then
      match s with
      | [] => UB
      | c :: s' =>
        let w1 := if N.land c 0xC0 =? 0x80 then w else werror w in
        raw_loop n' (N.lor (N.shiftl code 6) (N.land c 0x3F)) s' (push [c] w1)
      end
    else Ok (code, s, w)
  end.

(* format.cpp 76-100: readUnicode (of the writer) *)
Definition write_unicode (c : byte) (s : str) (w : writer) : outcome (str * writer) :=
  match lead_ones c with
  | None => UB
  | Some bytes =>
    let w1 := if (4 <? bytes) || (bytes <? 2) then werror w else w in
    let w2 := if N.of_nat (length (c :: s)) <? bytes then werror w1 else w1 in
    let code := N.land c (N.shiftl 1 (8 - (bytes + 1)) - 1) in
    do (code1, s1, w3) <- raw_loop (N.to_nat (bytes - 1)) code s (push [c] w2);
    if ((bytes =? 4) && (code1 <=? 0xFFFF))
       || ((bytes =? 3) && (code1 <=? 0x7FF))
       || ((bytes =? 2) && (code1 <=? 0x7F))
    then Ok (s1, werror w3)
    else Ok (s1, w3)
  end.

(* format.cpp 120-131: the switch of formatString *)
Definition format_char (c : byte) : str :=
  if c =? 34 then [92; 34]
  else if c =? 47 then [92; 47]
  else if c =? 92 then [92; 92]
  else if c =? 8 then [92; 98]
  else if c =? 12 then [92; 102]
  else if c =? 10 then [92; 110]
  else if c =? 13 then [92; 114]
  else if c =? 9 then [92; 116]
  else [c].

(* format.cpp 106-132: the loop of formatString (it does not test the writer); every
   round consumes at least one byte, so the length of the string is enough fuel *)
Fixpoint fstring_loop (fuel : nat) (s : str) (w : writer) : outcome writer :=
  match fuel with
  | O => match s with [] => Ok w | _ => OutOfFuel end
  | S f =>
    match s with
    | [] => Ok w
    | c :: s' =>
      if N.testbit c 7 && w_escape (wopt w) then
        do (s1, w1) <- escape_unicode c s' w; fstring_loop f s1 w1
      else if N.testbit c 7 && w_validate (wopt w) then
        do (s1, w1) <- write_unicode c s' w; fstring_loop f s1 w1
      else fstring_loop f s' (push (format_char c) w)
    end
  end.

(* format.cpp 102-135: formatString *)
Definition format_string (s : str) (w : writer) : outcome writer :=
  do w1 <- fstring_loop (length s) s (push [34] w);
  Ok (push [34] w1).

(* printer.tcc 32-48: the loop of printObject over the keys.  printFn and skipFn may
   end the program, hence their outcome types. *)
Fixpoint pobject_loop (first : bool) (keys : list str)
    (pfn : str -> writer -> outcome writer) (sfn : str -> writer -> outcome bool)
    (w : writer) : outcome (bool * writer) :=
  match keys with
  | [] => Ok (true, w)
  | k :: ks =>
    if negb (wok w) then Ok (false, w) else
    do sk <- sfn k w;
    if sk then pobject_loop first ks pfn sfn w else
    do w1 <- (if first then Ok w else wnewline (push (lit ",") w));
    do w2 <- format_string k w1;
    do w3 <- pfn k (wspace (push (lit ":") w2));
    pobject_loop false ks pfn sfn w3
  end.

(* printer.tcc 21-57: printObject; the loop returns early (false) when the writer
   has failed *)
Definition print_object (keys : list str)
    (pfn : str -> writer -> outcome writer) (sfn : str -> writer -> outcome bool)
    (w : writer) : outcome writer :=
  let w0 := push (lit "{") w in
  do w1 <- (if (1 <? length keys)%nat then wnewline (indent w0) else Ok (wspace w0));
  do (fin, w2) <- pobject_loop true keys pfn sfn w1;
  if negb fin then Ok w2 else
  do w3 <- (if (1 <? length keys)%nat then wnewline (unindent w2) else Ok (wspace w2));
  Ok (push (lit "}") w3).

(* printer.tcc 78-89: the loop of printArray for the indexes i .. i+k-1 (skipFn is
   the constant false of line 62) *)
Fixpoint parray_loop (first : bool) (i k : nat)
    (pfn : nat -> writer -> outcome writer) (w : writer) : outcome (bool * writer) :=
  match k with
  | O => Ok (true, w)
  | S k' =>
    if negb (wok w) then Ok (false, w) else
    do w1 <- (if first then Ok w else wnewline (push (lit ",") w));
    do w2 <- pfn i w1;
    parray_loop false (S i) k' pfn w2
  end.

(* printer.tcc 66-98: printArray *)
Definition print_array (n : nat) (pfn : nat -> writer -> outcome writer) (w : writer) : outcome writer :=
  let w0 := push (lit "[") w in
  do w1 <- (if (1 <? n)%nat then wnewline (indent w0) else Ok (wspace w0));
  do (fin, w2) <- parray_loop true 0 n pfn w1;
  if negb fin then Ok w2 else
  do w3 <- (if (1 <? n)%nat then wnewline (unindent w2) else Ok (wspace w2));
  Ok (push (lit "]") w3).
