(* SpecJson.v - what the JSON properties talk about, independently of the code:
   UTF-8, the spelling of strings and numbers, blanks, token sequences, and the
   abstract JSON values they denote.  Nothing here refers to the model. *)
From Coq Require String. Import String.StringSyntax.
From Verif Require Import Base.
Local Open Scope N_scope.

(* ---- bytes and UTF-8 ---- *)

(* The UTF-8 encoding of a code point, arithmetically (RFC 3629 extended to the 21
   bits a 4 byte sequence can hold). *)
Definition utf8 (cp : N) : str :=
  if cp <? 0x80 then [cp]
  else if cp <? 0x800 then [0xC0 + cp / 64; 0x80 + cp mod 64]
  else if cp <? 0x10000 then [0xE0 + cp / 4096; 0x80 + (cp / 64) mod 64; 0x80 + cp mod 64]
  else [0xF0 + cp / 262144; 0x80 + (cp / 4096) mod 64; 0x80 + (cp / 64) mod 64; 0x80 + cp mod 64].

(* A well formed multi-byte sequence in shortest form. *)
Definition utf8_multi (s : str) : Prop := exists cp, 0x80 <= cp < 0x200000 /\ s = utf8 cp.

(* A well formed UTF-8 text whose code points all satisfy P. *)
Inductive utf8_text (P : N -> Prop) : str -> Prop :=
| ut_nil : utf8_text P []
| ut_cons cp s : cp < 0x200000 -> P cp -> utf8_text P s -> utf8_text P (utf8 cp ++ s).

Definition is_byte (c : byte) : Prop := c < 256.
Definition byte_string (s : str) : Prop := Forall is_byte s.
(* bytes with no special meaning between quotes *)
Definition raw_text (x : str) : Prop := byte_string x /\ ~ In 10 x /\ ~ In 34 x /\ ~ In 92 x.

(* ---- characters ---- *)
Definition space_char (c : byte) : Prop := c = 32 \/ (9 <= c <= 13).
Definition digit_char (c : byte) : Prop := 48 <= c <= 57.

(* Value of a hexadecimal digit, either case. *)
Definition hex_digit (c v : N) : Prop :=
  (48 <= c <= 57 /\ v = c - 48) \/ (97 <= c <= 102 /\ v = c - 87) \/ (65 <= c <= 70 /\ v = c - 55).

(* ---- reading options, as the three facts the properties mention ---- *)
Record dialect := mkDialect { d_comments : bool; d_unescape : bool; d_validate : bool }.

(* ---- spelling of strings: one item of the text between the quotes and the bytes
   it stands for ---- *)
Inductive spell1 (d : dialect) : str -> str -> Prop :=
| sp_plain c : c < 128 -> c <> 10 -> c <> 34 -> c <> 92 -> spell1 d [c] [c]
| sp_utf8 s : d_validate d = true -> utf8_multi s -> spell1 d s s
| sp_high c : d_validate d = false -> 128 <= c < 256 -> spell1 d [c] [c]
| sp_quote : spell1 d [34] [92; 34]
| sp_slash : spell1 d [47] [92; 47]
| sp_bslash : spell1 d [92] [92; 92]
| sp_b : spell1 d [8] [92; 98]
| sp_f : spell1 d [12] [92; 102]
| sp_n : spell1 d [10] [92; 110]
| sp_r : spell1 d [13] [92; 114]
| sp_t : spell1 d [9] [92; 116]
| sp_u a b c e va vb vc ve :
    d_unescape d = true ->
    hex_digit a va -> hex_digit b vb -> hex_digit c vc -> hex_digit e ve ->
    spell1 d (utf8 (va * 4096 + vb * 256 + vc * 16 + ve)) [92; 117; a; b; c; e]
| sp_u_raw a b c e va vb vc ve :
    d_unescape d = false ->
    hex_digit a va -> hex_digit b vb -> hex_digit c vc -> hex_digit e ve ->
    spell1 d [92; 117; a; b; c; e] [92; 117; a; b; c; e].

Inductive spells (d : dialect) : str -> str -> Prop :=
| spells_nil : spells d [] []
| spells_cons v x vs xs : spell1 d v x -> spells d vs xs -> spells d (v ++ vs) (x ++ xs).

(* ---- numbers ---- *)
Fixpoint dec_val (s : str) (acc : N) : N :=
  match s with [] => acc | c :: s' => dec_val s' (acc * 10 + (c - 48)) end.

Definition digits (s : str) : Prop := Forall digit_char s.

(* Integer literals: an optional minus and at least one digit. *)
Inductive int_text : Z -> str -> Prop :=
| it_pos s : s <> [] -> digits s -> int_text (Z.of_N (dec_val s 0)) s
| it_neg s : s <> [] -> digits s -> int_text (- Z.of_N (dec_val s 0)) (45 :: s).

(* Float literals: integer part, then a fraction, an exponent or both. *)
Definition frac_part (s : str) : Prop := exists ds, s = 46 :: ds /\ ds <> [] /\ digits ds.
Definition exp_part (s : str) : Prop :=
  exists e sg ds, (e = 101 \/ e = 69) /\ (sg = [] \/ sg = [43] \/ sg = [45]) /\ ds <> [] /\ digits ds /\
                  s = e :: sg ++ ds.
Inductive float_text : str -> Prop :=
| ft sg ds fr ex :
    (sg = [] \/ sg = [45]) -> ds <> [] -> digits ds ->
    (fr = [] \/ frac_part fr) -> (ex = [] \/ exp_part ex) -> (fr <> [] \/ ex <> []) ->
    float_text (sg ++ ds ++ fr ++ ex).

(* What may follow a number. *)
Definition num_stop (s : str) : Prop :=
  exists c s', s = c :: s' /\ ~ digit_char c /\ c <> 46 /\ c <> 101 /\ c <> 69.

(* ---- tokens ---- *)
Inductive atok : Type :=
| AObjS | AObjE | AArrS | AArrE | ASep | AKey
| AStr (s : str) | AInt (z : Z) | AFloat (x : str) | ABool (b : bool) | ANull.

Definition is_num (t : atok) : Prop :=
  match t with AInt _ | AFloat _ => True | _ => False end.

Inductive tok_text (d : dialect) : atok -> str -> Prop :=
| tt_objs : tok_text d AObjS (lit "{")
| tt_obje : tok_text d AObjE (lit "}")
| tt_arrs : tok_text d AArrS (lit "[")
| tt_arre : tok_text d AArrE (lit "]")
| tt_sep : tok_text d ASep (lit ",")
| tt_key : tok_text d AKey (lit ":")
| tt_str s x : spells d s x -> tok_text d (AStr s) (34 :: x ++ [34])
| tt_int z x : int_text z x -> tok_text d (AInt z) x
| tt_float x : float_text x -> tok_text d (AFloat x) x
| tt_true : tok_text d (ABool true) (lit "true")
| tt_false : tok_text d (ABool false) (lit "false")
| tt_null : tok_text d ANull (lit "null").

(* Blanks: white space and, where allowed, // comments up to the end of the line. *)
Inductive blank (d : dialect) : str -> Prop :=
| bl_nil : blank d []
| bl_space c w : space_char c -> blank d w -> blank d (c :: w)
| bl_comment b w : d_comments d = true -> ~ In 10 b -> blank d w ->
    blank d (47 :: 47 :: b ++ 10 :: w).

(* What may be left of blanks when the text ends: also a comment without its line end. *)
Inductive blank_end (d : dialect) : str -> Prop :=
| be_blank w : blank d w -> blank_end d w
| be_comment w b : d_comments d = true -> blank d w -> ~ In 10 b -> blank_end d (w ++ 47 :: 47 :: b).

(* [lexes d s toks rest]: s is the tokens toks, each preceded by blanks, then rest. *)
Inductive lexes (d : dialect) : str -> list atok -> str -> Prop :=
| lx_nil s : lexes d s [] s
| lx_cons w t x s toks rest :
    blank d w -> tok_text d t x -> (is_num t -> num_stop s) -> lexes d s toks rest ->
    lexes d (w ++ x ++ s) (t :: toks) rest.

(* ---- abstract JSON values and their tokens ---- *)
Inductive json : Type :=
| JNull | JBool (b : bool) | JInt (z : Z) | JFloat (x : str) | JStr (s : str)
| JArr (l : list json) | JObj (l : list (str * json)).

(* items separated by ',' *)
Fixpoint sep_by (l : list (list atok)) : list atok :=
  match l with
  | [] => []
  | [x] => x
  | x :: l' => x ++ ASep :: sep_by l'
  end.

Fixpoint toks (j : json) : list atok :=
  match j with
  | JNull => [ANull]
  | JBool b => [ABool b]
  | JInt z => [AInt z]
  | JFloat x => [AFloat x]
  | JStr s => [AStr s]
  | JArr l => AArrS :: sep_by (map toks l) ++ [AArrE]
  | JObj l => AObjS :: sep_by (map (fun kv => AStr (fst kv) :: AKey :: toks (snd kv)) l) ++ [AObjE]
  end.

(* s is a text of j followed by rest. *)
Definition json_text (d : dialect) (j : json) (s rest : str) : Prop := lexes d s (toks j) rest.

(* 64-bit signed integers *)
Definition int64 (z : Z) : Prop := (- 2 ^ 63 <= z < 2 ^ 63)%Z.

(* Number of line ends. *)
Fixpoint newlines (s : str) : N :=
  match s with [] => 0 | c :: s' => (if c =? 10 then 1 else 0) + newlines s' end.
