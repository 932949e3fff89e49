(* SpecDouble.v - doubles, decimals and what it means to be the nearest one (C78). *)
From Coq Require Import ZArith QArith Qabs.
From Verif Require Import Base SpecJson.

(* m * b^e *)
Definition scaled (b m e : Z) : Q := (inject_Z m * inject_Z b ^ e)%Q.

(* IEEE 754 binary64: a finite double is a sign, a mantissa and an exponent. *)
Inductive double : Type := Fin (neg : bool) (m e : Z) | Inf (neg : bool) | Nan.
Definition is_double (d : double) : Prop :=
  match d with
  | Fin _ m e => (0 <= m < 2 ^ 53 /\ -1074 <= e <= 971 /\ (2 ^ 52 <= m \/ e = -1074))%Z
  | _ => True
  end.
Definition finite (d : double) : Prop := match d with Fin _ _ _ => True | _ => False end.
(* neither zero nor one of the denormalised numbers next to it *)
Definition normal (d : double) : Prop := match d with Fin _ m _ => (2 ^ 52 <= m)%Z | _ => False end.
Definition negative (d : double) : bool := match d with Fin s _ _ => s | Inf s => s | Nan => false end.
Definition mantissa (d : double) : Z := match d with Fin _ m _ => m | _ => 0%Z end.
Definition signed (s : bool) (q : Q) : Q := if s then (- q)%Q else q.
Definition value (d : double) : Q := match d with Fin s m e => signed s (scaled 2 m e) | _ => 0%Q end.

(* d is the double nearest to q; of two that are equally near, the even one. *)
Definition nearest_double (q : Q) (d : double) : Prop :=
  is_double d /\ finite d /\
  (forall d', is_double d' -> finite d' -> Qabs (q - value d) <= Qabs (q - value d'))%Q /\
  (forall d', is_double d' -> finite d' -> Qabs (q - value d) == Qabs (q - value d') ->
     value d' == value d \/ Z.even (mantissa d) = true)%Q.

(* The least normal double, and where the doubles end: from max_q on the nearest double is
   an infinity. *)
Definition least_q : Q := scaled 2 1 (-1022).
Definition max_q : Q := scaled 2 (2 ^ 54 - 1) 970.
Definition small (q : Q) : Prop := (Qabs q < max_q)%Q.

(* The numbers with at most n decimal digits, times a power of ten. *)
Definition decimal (n : Z) (q : Q) : Prop := exists m k, (Z.abs m < 10 ^ n)%Z /\ (q == scaled 10 m k)%Q.
(* q is the decimal with n digits nearest to x; of two that are equally near, the one
   whose last digit is even. *)
Definition nearest_decimal (n : Z) (x q : Q) : Prop :=
  decimal n q /\
  (forall q', decimal n q' -> Qabs (x - q) <= Qabs (x - q'))%Q /\
  (forall q', decimal n q' -> Qabs (x - q) == Qabs (x - q') ->
     q' == q \/ exists m k, (10 ^ (n - 1) <= Z.abs m < 10 ^ n)%Z /\ Z.even m = true /\ q == scaled 10 m k)%Q.

(* the integers with at most twelve digits *)
Definition whole (q : Q) : Prop := exists z, (q == inject_Z z)%Q /\ (Z.abs z < 10 ^ 12)%Z.

(* What a numeral means. *)
Inductive exponent : str -> Z -> Prop :=
| ex_none : exponent [] 0
| ex_some e sg ds : (e = 101%N \/ e = 69%N) -> (sg = [] \/ sg = [43%N] \/ sg = [45%N]) -> ds <> [] -> digits ds ->
    exponent (e :: sg ++ ds) (if match sg with [45%N] => true | _ => false end then - Z.of_N (dec_val ds 0) else Z.of_N (dec_val ds 0))%Z.
Inductive numeral : str -> Q -> Prop :=
| numeral_ (neg : bool) ds fr fs ex k q : ds <> [] -> digits ds -> digits fs -> (fr = [] /\ fs = [] \/ fr = 46%N :: fs /\ fs <> []) -> exponent ex k ->
    (q == signed neg (scaled 10 (Z.of_N (dec_val (ds ++ fs) 0)) (k - Z.of_nat (length fs))))%Q ->
    numeral ((if neg then [45%N] else []) ++ ds ++ fr ++ ex) q.
