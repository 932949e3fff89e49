(* ModelDouble.v - formatFloat and asFloat on real doubles: snprintf with %1.12g and
   std::stod, as the C and C++ standards describe them for a libc that rounds correctly (such
   as glibc, in the default rounding mode, in the C locale). *)
From Coq Require String. Import String.StringSyntax.
From Coq Require Import ZArith QArith Qabs Qround.
From Verif Require Import Base Dec ModelJson ModelJsonW SpecDouble.
Local Open Scope outcome_scope.
Local Open Scope Z_scope.


(* greatest k with b^k <= n *)
Fixpoint ilog (fuel : nat) (b n : Z) : Z :=
  match fuel with
  | O => 0
  | Datatypes.S f => if n <? b then 0 else 1 + ilog f b (n / b)
  end.
(* greatest k with b^k <= q, for q > 0 *)
Definition flog (b : Z) (q : Q) : Z :=
  let l n := ilog (Datatypes.S (Z.to_nat (Z.log2 n))) b n in
  let k := l (Qnum q) - l (QDen q) in
  if Qle_bool (inject_Z b ^ k) q then k else k - 1.
(* to the nearest integer, ties to even *)
Definition rint (q : Q) : Z :=
  let f := Qfloor q in
  match Qcompare (2 * (q - inject_Z f)) 1 with
  | Lt => f
  | Gt => f + 1
  | Eq => if Z.even f then f else f + 1
  end.
(* q > 0 rounded to p digits in base b with no exponent below emin: mantissa and exponent *)
Definition rnd (b p : Z) (emin : option Z) (q : Q) : Z * Z :=
  let e0 := flog b q - (p - 1) in
  let e := match emin with Some l => Z.max e0 l | None => e0 end in
  let m := rint (q * inject_Z b ^ (- e)) in
  if m =? b ^ p then (b ^ (p - 1), e + 1) else (m, e).

(* snprintf("%1.12g"): C11 7.21.6.1 p8, conversion g with precision 12 *)
Fixpoint drop0 (s : str) : str := match s with c :: s' => if N.eqb c 48 then drop0 s' else s | [] => [] end.
Definition strip0 (s : str) : str := rev (drop0 (rev s)).
Definition point (fs : str) : str := match fs with [] => [] | _ => 46%N :: fs end.
Definition pad2 (s : str) : str := match s with [c] => [48%N; c] | _ => s end.
(* style f or e by the exponent X of the 12 digits D, trailing zeros removed *)
Definition layout (D X : Z) : str :=
  let ds := dec (Z.to_N D) in
  if (-4 <=? X) && (X <? 12) then
    if 0 <=? X then
      let n := Z.to_nat (X + 1) in firstn n ds ++ point (strip0 (skipn n ds))
    else [48%N] ++ point (repeat 48%N (Z.to_nat (- X - 1)) ++ strip0 ds)
  else
    firstn 1 ds ++ point (strip0 (skipn 1 ds)) ++
    101%N :: (if X <? 0 then 45%N else 43%N) :: pad2 (dec (Z.to_N (Z.abs X))).
Definition fmt_g (d : double) : str :=
  match d with
  | Nan => lit "nan"
  | Inf s => if s then lit "-inf" else lit "inf"
  | Fin s m e =>
    (if s then [45%N] else []) ++
    (if m =? 0 then [48%N] else let '(D, k) := rnd 10 12 None (scaled 2 m e) in layout D (k + 11))
  end.
(* format.cpp 30-43, 50-53: at most 20 bytes are written, the 1024 byte buffer holds them *)
Definition format_float (d : double) (w : writer) : writer := push (fmt_g d) w.

(* strtod (C11 7.22.1.3): the longest prefix that is a number; no digits is
   std::invalid_argument.  Only the characters the tokenizer leaves in a number occur. *)
Fixpoint span_digits (s : str) : str * str :=
  match s with
  | c :: s' => if isdigit c then let '(a, b) := span_digits s' in (c :: a, b) else ([], s)
  | [] => ([], [])
  end.
Definition scan_exp (s : str) : Z :=
  match s with
  | c :: s1 =>
    if N.eqb c 101 || N.eqb c 69 then
      let '(neg, s2) := match s1 with
                        | g :: s2 => if N.eqb g 45 then (true, s2) else if N.eqb g 43 then (false, s2) else (false, s1)
                        | [] => (false, s1)
                        end in
      let ds := fst (span_digits s2) in
      if neg then - Z.of_N (undec ds) else Z.of_N (undec ds)
    else 0
  | [] => 0
  end.
(* sign, mantissa, power of ten *)
Definition scan (s : str) : outcome (bool * Z * Z) :=
  let '(neg, s1) := match s with
                    | c :: s' => if N.eqb c 45 then (true, s') else (false, s)
                    | [] => (false, [])
                    end in
  let '(ds, s2) := span_digits s1 in
  let '(fs, s3) := match s2 with
                   | c :: s' => if N.eqb c 46 then span_digits s' else ([], s2)
                   | [] => ([], [])
                   end in
  match ds ++ fs with
  | [] => Throw
  | all => Ok (neg, Z.of_N (undec all), scan_exp s3 - Z.of_nat (length fs))
  end.
(* std::stod: std::out_of_range when strtod reports ERANGE, that is when the result is too
   large, or tiny (below 2^-1022 when rounded to 53 bits) and inexact *)
Definition strtod (s : str) : outcome double :=
  do (neg, M, k) <- scan s;
  if M =? 0 then Ok (Fin neg 0 (-1074)) else
  let q := scaled 10 M k in
  let '(m, e) := rnd 2 53 (Some (-1074)) q in
  let '(mu, eu) := rnd 2 53 None q in
  if 971 <? e then Throw
  else if (eu <? -1074) && negb (Qeq_bool (scaled 2 m e) q) then Throw
  else Ok (Fin neg m e).
(* parser.tcc 32-40 with token.cpp 48-56: parse_float gives the text of the token *)
Definition parse_double (r : reader) : outcome (double * reader) :=
  do (x, r') <- parse_float r; do d <- strtod x; Ok (d, r').
