(* SpecInit.v - vocabulary of C80: the registrations a program makes before main. *)
From Coq Require String.
Import String.StringSyntax.
From Verif Require Import Base ModelCore ModelScope SpecScope ModelRegistry.

(* One static initialiser: reflectTypeImpl of the class path::name with loader l, or
   reflectAlias. *)
Inductive initialiser :=
| IType (path : list str) (name : str) (l : lid)
| IAlias (id alias : str).
Definition init_action (i : initialiser) : action :=
  match i with IType x c l => AAdd (qname (x ++ [c])) l | IAlias id al => AAlias id al end.

(* What makes a set of initialisers sound. *)
Record init_ok (L : list initialiser) : Prop := {
  (* class names are qualified names *)
  io_names : forall x c l, In (IType x c l) L -> Forall component (x ++ [c]);
  (* no reflected class is nested in another reflected class *)
  io_nested : forall x c l y d l', In (IType x c l) L -> In (IType y d l') L -> ~ prefix (x ++ [c]) y;
  (* a class reflected twice is reflected by the same function *)
  io_same : forall x c l l', In (IType x c l) L -> In (IType x c l') L -> l = l';
  (* aliases are not empty and each is given once *)
  io_filled : forall id al, In (IAlias id al) L -> id <> [] /\ al <> [];
  io_once : forall id id' al, In (IAlias id al) L -> In (IAlias id' al) L -> id = id';
  io_nodup : NoDup (filter (fun i => match i with IAlias _ _ => true | _ => false end) L) }.

(* The C++ types behind the typedefs of <cstdint> and <cstddef> and behind the shorthands,
   on x86-64 Linux: width in bits, and whether signed. *)
Inductive builtin := BChar | BShort | BInt | BLong | BLongLong.
Definition builtin_id (signed : bool) (b : builtin) : str :=
  match b, signed with
  | BChar, true => lit "signed char" | BChar, false => lit "unsigned char"
  | BShort, true => lit "short int" | BShort, false => lit "unsigned short int"
  | BInt, true => lit "int" | BInt, false => lit "unsigned int"
  | BLong, true => lit "long int" | BLong, false => lit "unsigned long int"
  | BLongLong, true => lit "long long int" | BLongLong, false => lit "unsigned long long int"
  end.
(* intN_t and int_leastN_t are the builtin type of that width; int_fastN_t is the machine word
   from 16 bits on *)
Definition exact_width (bits : nat) : option builtin :=
  match bits with 8 => Some BChar | 16 => Some BShort | 32 => Some BInt | 64 => Some BLong | _ => None end.
Definition fast_width (bits : nat) : option builtin :=
  match bits with 8 => Some BChar | 16 | 32 | 64 => Some BLong | _ => None end.
Definition bits_text (bits : nat) : str :=
  match bits with 8 => lit "8" | 16 => lit "16" | 32 => lit "32" | _ => lit "64" end.
Definition sign_text (signed : bool) : str := if signed then [] else lit "u".
Definition unsigned_text (signed : bool) : str := if signed then [] else lit "unsigned ".

(* al is another name of the builtin type b of that sign *)
Inductive cpp_name : str -> bool -> builtin -> Prop :=
| cn_exact s n b : exact_width n = Some b -> cpp_name (sign_text s ++ lit "int" ++ bits_text n ++ lit "_t") s b
| cn_least s n b : exact_width n = Some b -> cpp_name (sign_text s ++ lit "int_least" ++ bits_text n ++ lit "_t") s b
| cn_fast s n b : fast_width n = Some b -> cpp_name (sign_text s ++ lit "int_fast" ++ bits_text n ++ lit "_t") s b
| cn_max s : cpp_name (sign_text s ++ lit "intmax_t") s BLong
| cn_ptr s : cpp_name (sign_text s ++ lit "intptr_t") s BLong
| cn_size : cpp_name (lit "size_t") false BLong
| cn_ssize : cpp_name (lit "ssize_t") true BLong
| cn_short s : cpp_name (unsigned_text s ++ lit "short") s BShort
| cn_long s : cpp_name (unsigned_text s ++ lit "long") s BLong
| cn_longlong s : cpp_name (unsigned_text s ++ lit "long long") s BLongLong.
