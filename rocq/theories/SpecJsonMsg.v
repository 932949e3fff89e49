(* SpecJsonMsg.v - what the message of a reader's error is (C88). *)
From Coq Require String. Import String.StringSyntax.
From Verif Require Import Base ModelJson.
Local Open Scope N_scope.

(* how a kind of token is called *)
Inductive named : token -> str -> Prop :=
| n_notok : named TNone (lit "notok")
| n_objs : named TObjS (lit "{")
| n_obje : named TObjE (lit "}")
| n_arrs : named TArrS (lit "[")
| n_arre : named TArrE (lit "]")
| n_sep : named TSep (lit ",")
| n_key : named TKey (lit ":")
| n_str : named TStr (lit "string")
| n_int : named TInt (lit "int")
| n_float : named TFloat (lit "float")
| n_bool b : named (TBool b) (lit "bool")
| n_null : named TNull (lit "null")
| n_eos : named TEOS (lit "eos").

(* how a token found in the document is shown; text is what the document spells there *)
Inductive shown : token -> str -> str -> Prop :=
| sh_str text : shown TStr text (lit "<Token string: " ++ text ++ lit ">")
| sh_int text : shown TInt text (lit "<Token int: " ++ text ++ lit ">")
| sh_float text : shown TFloat text (lit "<Token float: " ++ text ++ lit ">")
| sh_true text : shown (TBool true) text (lit "<Token bool: true>")
| sh_false text : shown (TBool false) text (lit "<Token bool: false>")
| sh_other t text n : t <> TStr -> t <> TInt -> t <> TFloat -> (forall b, t <> TBool b) -> named t n ->
    shown t text (lit "<Token " ++ n ++ lit ">").

(* a byte as two hexadecimal digits *)
Inductive hexbyte : N -> str -> Prop :=
| hb hi lo : hi < 16 -> lo < 16 ->
    hexbyte (16 * hi + lo) [nth (N.to_nat hi) (lit "0123456789abcdef") 0; nth (N.to_nat lo) (lit "0123456789abcdef") 0].

(* The description of each cause.  The header byte is printed as a 32 bit negative number. *)
Inductive says : cause -> str -> Prop :=
| s_comment : says EComment (lit "comments are not allowed")
| s_literal l : says (ELiteral l) (lit "expected literal <" ++ l ++ lit ">")
| s_hex c : says (EHex c) (lit "non-hex digit in unicode code point <" ++ [c] ++ lit ">")
| s_head c h : hexbyte c h -> says (EUtf8Head c) (lit "invalid UTF-8 header: ffffff" ++ h)
| s_utf8 : says EUtf8 (lit "invalid UTF-8 encoding")
| s_newline : says ENewline (lit "invalid \n character in a string")
| s_escape c : says (EEscape c) (lit "unknown escaped character <" ++ [c] ++ lit ">")
| s_string : says EString (lit "unexpected end of string")
| s_char c : says (EChar c) (lit "unexpected character <" ++ [c] ++ lit ">")
| s_unexpected got exp text g x : shown got text g -> named exp x ->
    says (EUnexpected got exp text) (lit "unexpected token <" ++ g ++ lit ">, expecting <" ++ x ++ lit ">")
| s_unknown got text g : shown got text g -> says (EUnknown got text) (lit "unknown expected token <" ++ g ++ lit ">").

(* the bytes of the document a cause quotes *)
Definition quoted (c : cause) : str :=
  match c with
  | EHex x | EUtf8Head x | EEscape x | EChar x => [x]
  | EUnexpected _ _ s | EUnknown _ s => s
  | _ => []
  end.
