(* ModelError.v - src/error.cpp *)
From Verif Require Import Base Dec.

(* A byte of the local buffer: None while it has not been written. *)
Definition cell := option byte.

(* snprintf-family contract (C11 7.21.6.5): at most size-1 bytes of the message
   and then a NUL are stored; the length of the whole message is returned.
   msg is the fully expanded message; the expansion of the conversions itself is
   libc's and not modelled (nor a negative result for an encoding error). *)
Definition vsnprintf (buf : list cell) (size : nat) (msg : str) : list cell * nat :=
  let out := map Some (firstn (size - 1) msg) ++ [Some 0%N] in
  (out ++ skipn (length out) buf, length msg).

(* std::string(const char* p, size_t n): copies n bytes.  Reading past the end of
   the array is undefined; unwritten bytes are copied as indeterminate ones. *)
Definition string_from (buf : list cell) (n : nat) : outcome (list cell) :=
  if Nat.leb n (length buf) then Ok (firstn n buf) else UB.

(* src/error.cpp 19-28: buf is 1024 bytes, vsnprintf is given 1023. *)
Definition verrorFormat (msg : str) : outcome (list cell) :=
  let buf := repeat None 1024 in
  let '(buf', n) := vsnprintf buf (length buf - 1) msg in
  string_from buf' n.

(* src/error.cpp 35-43: prefix "file:line: "; then throw, or print and abort. *)
Inductive ending := Threw (what : str) | PrintedAndAborted (line : str).
Definition verror (except : bool) (file : str) (line : N) (msg : str) : ending :=
  let m := file ++ [58%N] ++ dec line ++ [58%N; 32%N] ++ msg in
  if except then Threw m
  else PrintedAndAborted (m ++ [10%N]).   (* printf("%s\n"): see PropError for embedded NULs *)
