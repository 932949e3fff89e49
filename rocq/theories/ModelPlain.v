(* ModelPlain.v - the bodies behind the reflected members of numbers, std::string and
   classes that use reflectPlumbing and reflectAllocPlumbing.
   Models src/types/primitives.tcc 30-57, src/types/std/string.cpp 17-25,
   src/dsl/plumbing.h 33-213 and src/dsl/function.h 40-51 (reflectAlloc).  The value
   of an object is a number, as in ModelCont: for an integer its two's complement
   bits, for a string or a class instance something opaque. *)
From Verif Require Import Base ModelCore ModelValue ModelCont.
Local Open Scope outcome_scope.

(* p_dflt: what T() holds; p_raw: what new T holds, which for a number is
   indeterminate (simplification: some number; reading it is UB in C++ and is not
   flagged); p_moved: what is left of an object moved from *)
Record plain := Plain { p_base : nat; p_dflt : N; p_raw : N; p_moved : N -> N }.

(* the C++ arithmetic of a number type.  Simplification: int has 32 bits; the sum of
   two floating point numbers is opaque. *)
Inductive arith := AInt (bits : N) (signed : bool) | AFloat (add : N -> N -> N).
(* the integral promotions *)
Definition promoted (bits : N) (signed : bool) : N * bool := if N.ltb bits 32 then (32%N, true) else (bits, signed).
Definition decode (bits : N) (signed : bool) (p : N) : Z :=
  if signed && N.leb (2 ^ (bits - 1)) p then (Z.of_N p - 2 ^ Z.of_N bits)%Z else Z.of_N p.
Definition encode (bits : N) (z : Z) : N := Z.to_N (z mod 2 ^ Z.of_N bits).
(* src/types/primitives.tcc 40-42: obj + value; signed overflow is UB *)
Definition sum (ar : arith) (p q : N) : outcome N :=
  match ar with
  | AFloat add => Ok (add p q)
  | AInt bits signed =>
    let '(rb, rs) := promoted bits signed in
    let z := (decode bits signed p + decode bits signed q)%Z in
    let half := (2 ^ (Z.of_N rb - 1))%Z in
    if rs && negb (Z.leb (- half) z && Z.ltb z half) then UB else Ok (encode rb z)
  end.

(* what the type registers on top of reflectPlumbing *)
Inductive more := XNumber (ar : arith) | XString (size : N -> N) | XClass.

(* The special members are those of reflectPlumbing (ModelPlumb.plumbing); 5 and
   up are the members of ModelPlumb.number, stdString or allocPlumbing. *)
Definition plain_body (K : plain) (x : more) (code : nat) (qs : list param) (m : mem) (next : nat)
  : outcome (mem * nat * result) :=
  let heap_new m p := Ok (mset m next (DData p), S next, RNew (DPtr (Some (next, 0%N)))) in
  match code - p_base K, x, qs with
  | 0, _, [] => Ok (m, next, RNew (DData (p_dflt K)))                                   (* plumbing.h 39 T() *)
  | 1, _, [PRef o] => do p <- get m o; Ok (m, next, RNew (DData p))                     (* 78-80 T(other) *)
  | 2, _, [PRef a; PRef o] =>                                                           (* 161-163 obj = other *)
    do p <- get m o; do _ <- get m a; Ok (write m a p, next, RRef a)
  | 3, _, [PMove o] => do p <- get m o; Ok (write m o (p_moved K p), next, RNew (DData p))   (* 119-121 T(std::move(other)) *)
  | 4, _, [PRef a; PMove o] =>                                                          (* 181-183 obj = std::move(other) *)
    do p <- get m o; do _ <- get m a; Ok (write (write m a p) o (p_moved K p), next, RRef a)
  | 5, XNumber _, [] | 5, XString _, [] => heap_new m (p_raw K)                         (* function.h 47 new T *)
  | 5, XClass, [] => heap_new m (p_dflt K)                                              (* plumbing.h 58 new T() *)
  | 6, XClass, [PRef o] => do p <- get m o; heap_new m p                                (* 98-100 new T(other) *)
  | 7, XClass, [PMove o] => do p <- get m o; heap_new (write m o (p_moved K p)) p       (* 140-142 new T(std::move(other)) *)
  | 6, XNumber ar, [PRef a; PCopy i] =>                                                 (* primitives.tcc 40-42 *)
    do p <- get m a; do q <- get m i; do r <- sum ar p q; Ok (m, next, RNew (DData r))
  | 6, XString size, [PRef a] => do p <- get m a; Ok (m, next, RNew (DData (size p)))   (* string.cpp 24 size() *)
  | _, _, _ => UB
  end.
