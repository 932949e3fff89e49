(* ModelJson.v - src/utils/json: Reader, Token, the tokenizer and the generic
   (callback based) parser.

   Simplifications, all stated again where they apply:
   - an error object keeps the line, the position and the cause with the arguments of
     its message; ModelJsonMsg.v turns them into the text;
   - the stream is a std::istringstream (the std::string overload of parse,
     parser.tcc 146-151): bytes are available at once, only the end of the text
     makes it fail;
   - std::isspace / std::isdigit are those of the C locale; for bytes above 0x7f
     (a negative char, formally undefined in C) glibc answers false and so does
     the model;
   - the stack is unbounded. *)
From Coq Require String. Import String.StringSyntax.
From Verif Require Import Base Dec.
Local Open Scope outcome_scope.
Local Open Scope N_scope.

(* ---- characters used by the tokenizer ---- *)
Definition c_nl : byte := 10.       (* '\n' *)
Definition c_quote : byte := 34.    (* double quote *)
Definition c_slash : byte := 47.    (* '/'  *)
Definition c_bslash : byte := 92.   (* '\\' *)
Definition c_eof : byte := 255.     (* char(EOF) *)

(* token.h 19-28: Token::Type; token.cpp 23-26: a Bool token also carries its
   value (value_ points at trueValue or falseValue).  The value_ of String, Int and
   Float tokens is a pointer to Reader::buffer_, so it is not stored in the token:
   it is read from the reader when it is used. *)
Inductive token : Type :=
| TNone | TObjS | TObjE | TArrS | TArrE | TSep | TKey
| TStr | TInt | TFloat | TBool (b : bool) | TNull | TEOS.

(* token.type() == exp *)
Definition same_type (a b : token) : bool :=
  match a, b with
  | TNone, TNone | TObjS, TObjS | TObjE, TObjE | TArrS, TArrS | TArrE, TArrE
  | TSep, TSep | TKey, TKey | TStr, TStr | TInt, TInt | TFloat, TFloat
  | TBool _, TBool _ | TNull, TNull | TEOS, TEOS => true
  | _, _ => false
  end.

(* The call sites of Reader::error, with the arguments they format.  text is the
   reader's buffer, which is what the value_ of a String, Int or Float token points
   at (Token::print reads it). *)
Inductive cause : Type :=
| EComment            (* token.cpp 125: comments are not allowed *)
| ELiteral (l : str)  (* token.cpp 144 *)
| EHex (c : byte)     (* token.cpp 160, 211 *)
| EUtf8Head (c : byte)   (* token.cpp 222 *)
| EUtf8               (* token.cpp 229, 239 *)
| ENewline            (* token.cpp 250 *)
| EEscape (c : byte)  (* token.cpp 273 *)
| EString             (* token.cpp 281: unexpected end of string *)
| EChar (c : byte)    (* token.cpp 371 *)
| EUnexpected (got exp : token) (text : str)  (* reader.cpp 51 *)
| EUnknown (got : token) (text : str)         (* parser.cpp 322 *)
| EOther (msg : str). (* a call by the application: Reader::error is public (reader.h 71) *)

(* error.h 16-20 + reader.tcc 22-29: an active error with the line:pos prefix. *)
Record rerror := mkErr { err_line : N; err_pos : N; err_cause : cause }.

(* reader.h 19-27: Options *)
Record ropts := mkOpts { o_comments : bool; o_unescape : bool; o_validate : bool }.
Definition ropts_default : ropts := mkOpts false true true.   (* reader.h 26 *)

(* reader.h 17-75: Reader, together with the state of its istream: the unread
   bytes, eofbit and failbit. *)
Record reader := mkR {
  rin : str; reof : bool; rfail : bool;
  rerr : option rerror;
  rpos : N; rline : N;
  rbuf : str;
  rtok : token;
  ropt : ropts
}.

(* reader.h 29-35: the constructor *)
Definition reader_init (o : ropts) (s : str) : reader :=
  mkR s false false None 1 1 [] TNone o.

(* reader.h 37-38: ok(): no error and !stream.fail() *)
Definition rok (r : reader) : bool :=
  match rerr r with Some _ => false | None => negb (rfail r) end.

Definition set_tok (t : token) (r : reader) : reader :=
  mkR (rin r) (reof r) (rfail r) (rerr r) (rpos r) (rline r) (rbuf r) t (ropt r).
Definition set_buf (b : str) (r : reader) : reader :=
  mkR (rin r) (reof r) (rfail r) (rerr r) (rpos r) (rline r) b (rtok r) (ropt r).

(* reader.tcc 16-27: Reader::error keeps the first error. *)
Definition rerror_set (c : cause) (r : reader) : reader :=
  match rerr r with
  | Some _ => r
  | None => mkR (rin r) (reof r) (rfail r) (Some (mkErr (rline r) (rpos r) c))
                (rpos r) (rline r) (rbuf r) (rtok r) (ropt r)
  end.

(* reader.h 44: stream.peek().  On a stream that is not good() the sentry sets
   failbit; at the end of the text eofbit is set; both return EOF. *)
Definition peekc (r : reader) : byte * reader :=
  if reof r || rfail r
  then (c_eof, mkR (rin r) (reof r) true (rerr r) (rpos r) (rline r) (rbuf r) (rtok r) (ropt r))
  else match rin r with
       | [] => (c_eof, mkR [] true (rfail r) (rerr r) (rpos r) (rline r) (rbuf r) (rtok r) (ropt r))
       | c :: _ => (c, r)
       end.

(* reader.h 45: pos_++ and stream.get().  At the end of the text get() sets eofbit
   and failbit and returns EOF, which the char return type turns into 0xff. *)
Definition popc (r : reader) : byte * reader :=
  if reof r || rfail r
  then (c_eof, mkR (rin r) (reof r) true (rerr r) (rpos r + 1) (rline r) (rbuf r) (rtok r) (ropt r))
  else match rin r with
       | [] => (c_eof, mkR [] true true (rerr r) (rpos r + 1) (rline r) (rbuf r) (rtok r) (ropt r))
       | c :: s => (c, mkR s (reof r) (rfail r) (rerr r) (rpos r + 1) (rline r) (rbuf r) (rtok r) (ropt r))
       end.

(* reader.h 52-54 *)
Definition save (c : byte) (r : reader) : reader := set_buf (rbuf r ++ [c]) r.
Definition reset_buf (r : reader) : reader := set_buf [] r.

(* reader.h 58: newline() *)
Definition newline (r : reader) : reader :=
  mkR (rin r) (reof r) (rfail r) (rerr r) 1 (rline r + 1) (rbuf r) (rtok r) (ropt r).

(* <cctype> isspace, isdigit in the C locale *)
Definition isspace (c : byte) : bool := (c =? 32) || ((9 <=? c) && (c <=? 13)).
Definition isdigit (c : byte) : bool := (48 <=? c) && (c <=? 57).

(* Steps that certainly suffice for a loop that pops at least one byte per round. *)
Definition rfuel (r : reader) : nat := S (S (length (rin r))).

(* token.cpp 127: while (reader && (c = reader.pop()) != '\n') continue; *)
Fixpoint skip_comment (fuel : nat) (r : reader) : outcome reader :=
  match fuel with
  | O => OutOfFuel
  | S f =>
    if rok r then
      let (c, r1) := popc r in
      if c =? c_nl then Ok r1 else skip_comment f r1
    else Ok r
  end.

(* token.cpp 115-135: nextChar *)
Fixpoint next_char (fuel : nat) (r : reader) : outcome (byte * reader) :=
  match fuel with
  | O => OutOfFuel
  | S f =>
    if rok r then
      let (c, r0) := popc r in
      let r1 := if c =? c_nl then newline r0 else r0 in
      if isspace c then next_char f r1
      else if c =? c_slash then
        let (d, r2) := peekc r1 in
        if d =? c_slash then
          let r3 := if o_comments (ropt r2) then r2 else rerror_set EComment r2 in
          do r4 <- skip_comment (rfuel r3) r3;
          next_char f r4
        else Ok (c, r2)
      else Ok (c, r1)
    else Ok (0, r)
  end.

(* token.cpp 142: the loop of readLiteral; returns what is left of the literal. *)
Fixpoint literal_loop (l : str) (r : reader) : str * reader :=
  match l with
  | [] => ([], r)
  | x :: l' =>
    if rok r then
      let (c, r1) := popc r in
      if c =? x then literal_loop l' r1 else (l, r1)
    else (l, r)
  end.

(* token.cpp 138-145: readLiteral *)
Definition read_literal (l : str) (r : reader) : reader :=
  let (rest, r1) := literal_loop l r in
  match rest with [] => r1 | _ => rerror_set (ELiteral l) r1 end.

(* token.cpp 157-159: the value of a hexadecimal digit *)
Definition hexval (c : byte) : option N :=
  if (48 <=? c) && (c <=? 57) then Some (c - 48)
  else if (97 <=? c) && (c <=? 102) then Some (c - 97 + 10)
  else if (65 <=? c) && (c <=? 70) then Some (c - 65 + 10)
  else None.

(* token.cpp 152-161: the digit loop of unescapeUnicode (n rounds left).  The test
   at line 163 (reader && i != 4) is never true: the loop only stops early when the
   reader is not ok. *)
Fixpoint hex_loop (n : nat) (code : N) (r : reader) : N * reader :=
  match n with
  | O => (code, r)
  | S n' =>
    if rok r then
      let (c, r1) := popc r in
      let code1 := N.shiftl code 4 in
      match hexval c with
      | Some v => hex_loop n' (N.lor code1 v) r1
      | None => hex_loop n' code1 (rerror_set (EHex c) r1)
      end
    else (code, r)
  end.

(* token.cpp 166-168: encode *)
Definition encode1 (code : N) (p : N) (mask head : N) : byte :=
  N.lor (N.land (N.shiftr code (6 * p)) mask) head.

(* token.cpp 170-191; the 4 byte branch and the reflectError after it are never
   reached from a 4 digit escape. *)
Definition save_code (code : N) (r : reader) : outcome reader :=
  if code <=? 0x7F then Ok (save code r)
  else if code <=? 0x7FF then
    Ok (save (encode1 code 0 0x3F 0x80) (save (encode1 code 1 0x1F 0xC0) r))
  else if code <=? 0xFFFF then
    Ok (save (encode1 code 0 0x3F 0x80) (save (encode1 code 1 0x3F 0x80)
       (save (encode1 code 2 0x0F 0xE0) r)))
  else if code <=? 0x1FFFFF then
    Ok (save (encode1 code 0 0x3F 0x80) (save (encode1 code 1 0x3F 0x80)
       (save (encode1 code 2 0x3F 0x80) (save (encode1 code 3 0x07 0xF0) r))))
  else Abort.

(* token.cpp 147-192: unescapeUnicode *)
Definition unescape_unicode (r : reader) : outcome reader :=
  let (code, r1) := hex_loop 4 0 r in
  if rok r1 then save_code code r1 else Ok r1.

(* token.cpp 205-212: the loop of readUnicode without unescaping *)
Fixpoint raw_hex_loop (n : nat) (r : reader) : reader :=
  match n with
  | O => r
  | S n' =>
    if rok r then
      let (c, r1) := popc r in
      match hexval c with
      | Some _ => raw_hex_loop n' (save c r1)
      | None => raw_hex_loop n' (rerror_set (EHex c) r1)
      end
    else r
  end.

(* token.cpp 194-215: readUnicode (called after "\u" has been read) *)
Definition read_unicode (r : reader) : outcome reader :=
  if o_unescape (ropt r) then unescape_unicode r
  else Ok (raw_hex_loop 4 (save 117 (save c_bslash r))).

(* utils.h 15: clz(char) = __builtin_clz(uint32_t(value) << 24), undefined for 0 *)
Definition clz8 (v : byte) : option N := if v =? 0 then None else Some (7 - N.log2 v).

(* clz(~c), as used by token.cpp 221 and format.cpp 58, 78 *)
Definition lead_ones (c : byte) : option N := clz8 (255 - c).

(* token.cpp 227-231: the continuation byte loop of validateUnicode *)
Fixpoint cont_loop (n : nat) (code : N) (r : reader) : N * reader :=
  match n with
  | O => (code, r)
  | S n' =>
    if rok r then
      let (c, r0) := popc r in
      let r1 := save c r0 in
      let r2 := if N.land c 0xC0 =? 0x80 then r1 else rerror_set EUtf8 r1 in
      cont_loop n' (N.lor (N.shiftl code 6) (N.land c 0x3F)) r2
    else (code, r)
  end.

(* token.cpp 217-240: validateUnicode *)
Definition validate_unicode (c : byte) (r : reader) : outcome reader :=
  let r0 := save c r in
  match lead_ones c with
  | None => UB
  | Some bytes =>
    let r1 := if (4 <? bytes) || (bytes <? 2) then rerror_set (EUtf8Head c) r0 else r0 in
    let mask := N.shiftl 1 (7 - bytes) - 1 in
    let (code, r2) := cont_loop (N.to_nat (bytes - 1)) (N.land c mask) r1 in
    if ((bytes =? 4) && (0xFFFF <? code))
       || ((bytes =? 3) && (0x7FF <? code))
       || ((bytes =? 2) && (0x7F <? code))
    then Ok r2
    else Ok (rerror_set EUtf8 r2)
  end.

(* token.cpp 261-269: what a one letter escape stands for ('u' is separate) *)
Definition escape_value (c : byte) : option byte :=
  if (c =? 34) || (c =? 47) || (c =? 92) then Some c
  else if c =? 98 then Some 8
  else if c =? 102 then Some 12
  else if c =? 110 then Some 10
  else if c =? 114 then Some 13
  else if c =? 116 then Some 9
  else None.

(* token.cpp 246-281: the loop of readString and what follows it *)
Fixpoint string_loop (fuel : nat) (r : reader) : outcome reader :=
  match fuel with
  | O => OutOfFuel
  | S f =>
    if rok r then
      let (c, r1) := popc r in
      if c =? c_nl then string_loop f (rerror_set ENewline r1)
      else if N.testbit c 7 && o_validate (ropt r1) then
        do r2 <- validate_unicode c r1; string_loop f r2
      else if c =? c_quote then Ok r1
      else if c =? c_bslash then
        let (e, r2) := popc r1 in
        if e =? 117 then do r3 <- read_unicode r2; string_loop f r3
        else match escape_value e with
             | Some v => string_loop f (save v r2)
             | None => Ok (rerror_set (EEscape e) r2)
             end
      else string_loop f (save c r1)
    else Ok (rerror_set EString r)
  end.

(* token.cpp 242-282: readString *)
Definition read_string (r : reader) : outcome reader :=
  string_loop (rfuel r) (reset_buf r).

(* token.cpp 290-293: readDigits *)
Fixpoint digits_loop (fuel : nat) (r : reader) : outcome reader :=
  match fuel with
  | O => OutOfFuel
  | S f =>
    if rok r then
      let (c, r1) := peekc r in
      if isdigit c then
        let (d, r2) := popc r1 in digits_loop f (save d r2)
      else Ok r1
    else Ok r
  end.
Definition read_digits (r : reader) : outcome reader := digits_loop (rfuel r) r.

(* token.cpp 295-300: readChar *)
Definition read_char (x : byte) (r : reader) : bool * reader :=
  if rok r then
    let (c, r1) := peekc r in
    if c =? x then let (d, r2) := popc r1 in (true, save d r2) else (false, r1)
  else (false, r).

(* token.cpp 302-308: readChars; the second peek only happens when the first
   comparison fails *)
Definition read_chars (a b : byte) (r : reader) : bool * reader :=
  if rok r then
    let (c, r1) := peekc r in
    if c =? a then let (d, r2) := popc r1 in (true, save d r2)
    else let (c2, r2) := peekc r1 in
         if c2 =? b then let (d, r3) := popc r2 in (true, save d r3) else (false, r2)
  else (false, r).

(* token.cpp 284-323: readNumber *)
Definition read_number (c : byte) (r : reader) : outcome (token * reader) :=
  do r1 <- read_digits (save c (reset_buf r));
  let (dot, r2) := read_char 46 r1 in
  do r3 <- (if dot then read_digits r2 else Ok r2);
  let (ex, r4) := read_chars 101 69 r3 in
  do r5 <- (if ex then read_digits (snd (read_chars 43 45 r4)) else Ok r4);
  Ok ((if dot || ex then TFloat else TInt), r5).

(* token.cpp 329-374: nextToken *)
Definition lex_token (r : reader) : outcome (token * reader) :=
  if negb (rok r) then Ok (TEOS, r) else
  do (c, r1) <- next_char (rfuel r) r;
  if negb (rok r1) then Ok (TEOS, r1)
  else if c =? 123 then Ok (TObjS, r1)
  else if c =? 125 then Ok (TObjE, r1)
  else if c =? 91 then Ok (TArrS, r1)
  else if c =? 93 then Ok (TArrE, r1)
  else if c =? 44 then Ok (TSep, r1)
  else if c =? 58 then Ok (TKey, r1)
  else if c =? 110 then Ok (TNull, read_literal (lit "ull") r1)
  else if c =? 116 then Ok (TBool true, read_literal (lit "rue") r1)
  else if c =? 102 then Ok (TBool false, read_literal (lit "alse") r1)
  else if c =? c_quote then do r2 <- read_string r1; Ok (TStr, r2)
  else if (c =? 45) || isdigit c then read_number c r1
  else Ok (TEOS, rerror_set (EChar c) r1).

(* reader.cpp 15-23: peekToken *)
Definition peek_tok (r : reader) : outcome (token * reader) :=
  if same_type (rtok r) TNone then
    do (t, r1) <- lex_token r; Ok (t, set_tok t r1)
  else Ok (rtok r, r).

(* reader.cpp 25-35: nextToken *)
Definition next_tok (r : reader) : outcome (token * reader) :=
  if same_type (rtok r) TNone then lex_token r
  else Ok (rtok r, set_tok TNone r).

(* reader.cpp 45-53: assertToken *)
Definition assert_tok (t exp : token) (r : reader) : reader :=
  if same_type t exp then r else rerror_set (EUnexpected t exp (rbuf r)) r.

(* reader.cpp 37-43: expectToken *)
Definition expect_tok (exp : token) (r : reader) : outcome (token * reader) :=
  do (t, r1) <- next_tok r;
  if same_type t exp then Ok (t, r1) else Ok (TEOS, assert_tok t exp r1).

(* token.cpp 28-36: asBool *)
Definition as_bool (t : token) : outcome bool :=
  match t with TBool b => Ok b | _ => Abort end.

(* token.cpp 45: std::stol on the text of an Int token, i.e. an optional '-' and
   digits: no digits is std::invalid_argument, a value outside of long is
   std::out_of_range.  undec is the value of a run of digits. *)
Definition stol (s : str) : outcome Z :=
  let '(neg, ds) := match s with
                    | c :: s' => if c =? 45 then (true, s') else (false, s)
                    | [] => (false, [])
                    end in
  match ds with
  | [] => Throw
  | _ =>
    let v := if neg then (- Z.of_N (undec ds))%Z else Z.of_N (undec ds) in
    if ((- 2 ^ 63 <=? v) && (v <? 2 ^ 63))%Z then Ok v else Throw
  end.

(* token.cpp 38-46: asInt *)
Definition as_int (t : token) (r : reader) : outcome Z :=
  match t with TInt => stol (rbuf r) | _ => Abort end.

(* token.cpp 48-56: asFloat.  Doubles are not modelled: a float is represented by
   the text of its token.  std::stod throws std::invalid_argument when the text has
   no digit before its exponent; its std::out_of_range is not modelled. *)
Definition stod (s : str) : outcome str :=
  match s with
  | c :: s' =>
    let m := if c =? 45 then s' else s in
    match m with
    | d :: m' => if isdigit d then Ok s
                 else match m' with
                      | e :: _ => if (d =? 46) && isdigit e then Ok s else Throw
                      | [] => Throw
                      end
    | [] => Throw
    end
  | [] => Throw
  end.
Definition as_float (t : token) (r : reader) : outcome str :=
  match t with TFloat => stod (rbuf r) | _ => Abort end.

(* token.cpp 58-66: asString; the reference it returns is read from the reader's
   buffer when used *)
Definition as_string (t : token) (r : reader) : outcome str :=
  match t with TStr => Ok (rbuf r) | _ => Abort end.

(* parser.tcc 17-20 *)
Definition parse_null (r : reader) : outcome reader :=
  do (_, r1) <- expect_tok TNull r; Ok r1.
(* parser.tcc 22-25 *)
Definition parse_bool (r : reader) : outcome (bool * reader) :=
  do (t, r1) <- expect_tok (TBool true) r; do b <- as_bool t; Ok (b, r1).
(* parser.tcc 27-30 *)
Definition parse_int (r : reader) : outcome (Z * reader) :=
  do (t, r1) <- expect_tok TInt r; do z <- as_int t r1; Ok (z, r1).
(* parser.tcc 32-40: an Int token passes the test but asFloat rejects it *)
Definition parse_float (r : reader) : outcome (str * reader) :=
  do (t, r1) <- next_tok r;
  let r2 := if same_type t TInt then r1 else assert_tok t TFloat r1 in
  do f <- as_float t r2; Ok (f, r2).
(* parser.tcc 42-45 *)
Definition parse_string (r : reader) : outcome (str * reader) :=
  do (t, r1) <- expect_tok TStr r; do s <- as_string t r1; Ok (s, r1).

(* parser.tcc 60-70: the loop of parseObject.  The callback is a state transformer
   (the variables captured by the C++ lambda are its state).  The key is a
   reference to the reader's buffer, so the callback sees the buffer as it is after
   the ':' token was read. *)
Fixpoint object_loop {S : Type} (fuel : nat)
    (fn : str -> S -> reader -> outcome (S * reader)) (s : S) (r : reader)
    : outcome (S * reader) :=
  match fuel with
  | O => OutOfFuel
  | Datatypes.S f =>
    if rok r then
      do (t, r1) <- expect_tok TStr r;
      do _ <- as_string t r1;
      do (_, r2) <- expect_tok TKey r1;
      do (s1, r3) <- fn (rbuf r2) s r2;
      do (t2, r4) <- next_tok r3;
      if same_type t2 TObjE then Ok (s1, r4)
      else object_loop f fn s1 (assert_tok t2 TSep r4)
    else Ok (s, r)
  end.

(* parser.tcc 47-71: parseObject *)
Definition parse_object {S : Type} (fuel : nat)
    (fn : str -> S -> reader -> outcome (S * reader)) (s : S) (r : reader)
    : outcome (S * reader) :=
  do (t, r1) <- next_tok r;
  if same_type t TNull then Ok (s, r1) else
  do (t2, r2) <- peek_tok (assert_tok t TObjS r1);
  if same_type t2 TObjE then do (_, r3) <- expect_tok TObjE r2; Ok (s, r3)
  else object_loop fuel fn s r2.

(* parser.tcc 86-92: the loop of parseArray *)
Fixpoint array_loop {S : Type} (fuel : nat)
    (fn : nat -> S -> reader -> outcome (S * reader)) (i : nat) (s : S) (r : reader)
    : outcome (S * reader) :=
  match fuel with
  | O => OutOfFuel
  | Datatypes.S f =>
    if rok r then
      do (s1, r1) <- fn i s r;
      do (t, r2) <- next_tok r1;
      if same_type t TArrE then Ok (s1, r2)
      else array_loop f fn (Datatypes.S i) s1 (assert_tok t TSep r2)
    else Ok (s, r)
  end.

(* parser.tcc 73-93: parseArray *)
Definition parse_array {S : Type} (fuel : nat)
    (fn : nat -> S -> reader -> outcome (S * reader)) (s : S) (r : reader)
    : outcome (S * reader) :=
  do (t, r1) <- next_tok r;
  if same_type t TNull then Ok (s, r1) else
  do (t2, r2) <- peek_tok (assert_tok t TArrS r1);
  if same_type t2 TArrE then do (_, r3) <- expect_tok TArrE r2; Ok (s, r3)
  else array_loop fuel fn 0 s r2.

(* parser.tcc 96-124: skip.  The default branch passes a Token object to the "%s"
   of a C variadic function, which is undefined behaviour. *)
Fixpoint skip (fuel : nat) (r : reader) : outcome reader :=
  match fuel with
  | O => OutOfFuel
  | S f =>
    do (t, r1) <- peek_tok r;
    if negb (rok r1) then Ok r1 else
    match t with
    | TNull | TBool _ | TInt | TFloat | TStr => do (_, r2) <- next_tok r1; Ok r2
    | TArrS =>
      do (_, r2) <- parse_array f (fun _ (_ : unit) r => do r' <- skip f r; Ok (tt, r')) tt r1;
      Ok r2
    | TObjS =>
      do (_, r2) <- parse_object f (fun _ (_ : unit) r => do r' <- skip f r; Ok (tt, r')) tt r1;
      Ok r2
    | _ => UB
    end
  end.
