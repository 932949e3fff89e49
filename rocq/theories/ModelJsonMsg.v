(* ModelJsonMsg.v - the text of the reader's errors: src/utils/json/reader.tcc 16-27,
   reader.cpp 45-53, token.cpp 68-108 (print) and the calls of Reader::error, with
   src/error.cpp (ModelError.v) and the conversions of vsnprintf they use.

   Reader::error returns at once when an error is already active (reader.tcc 22), so the
   only message that is ever formatted is that of the error that is kept. *)
From Coq Require String. Import String.StringSyntax.
From Verif Require Import Base Dec ModelError ModelJson.
Local Open Scope outcome_scope.
Local Open Scope N_scope.

(* A variadic argument: a char is promoted to int (char is signed here); a std::string
   goes through errorConvert (error.h 66-69), i.e. c_str(). *)
Inductive varg := AInt (z : Z) | AText (s : str).
Definition achar (c : byte) : varg := AInt (if c <? 128 then Z.of_N c else Z.of_N c - 256).

(* what a char* argument denotes: the bytes before the first NUL *)
Fixpoint cstr (s : str) : str :=
  match s with [] => [] | c :: s' => if c =? 0 then [] else c :: cstr s' end.

(* %x: the unsigned value in lower case hexadecimal without leading zeros; n digits suffice *)
Definition hexchar (d : N) : byte := if d <? 10 then 48 + d else 87 + d.
Fixpoint hexnum (n : nat) (v : N) : str :=
  match n with
  | O => []
  | S n' => if v <? 16 then [hexchar v] else hexnum n' (v / 16) ++ [hexchar (v mod 16)]
  end.

(* C11 7.21.6.1, the conversions used by the reader: %c writes the int as an unsigned
   char, %x as an unsigned int, %s the string.  None: undefined (a missing argument, an
   argument of another type or another conversion). *)
Fixpoint expand (fmt : str) (args : list varg) : option str :=
  match fmt with
  | [] => Some []
  | 37 :: k :: fmt' =>
    match args with
    | a :: args' =>
      match k, a with
      | 99, AInt z => option_map (cons (Z.to_N (z mod 256))) (expand fmt' args')
      | 120, AInt z => option_map (app (hexnum 8 (Z.to_N (z mod 2 ^ 32)))) (expand fmt' args')
      | 115, AText s => option_map (app (cstr s)) (expand fmt' args')
      | _, _ => None
      end
    | [] => None
    end
  | 37 :: [] => None
  | c :: fmt' => option_map (cons c) (expand fmt' args)
  end.

(* token.cpp 68-94: print(Token::Type) *)
Definition type_text (t : token) : str :=
  match t with
  | TNone => lit "notok"
  | TObjS => lit "{" | TObjE => lit "}"
  | TArrS => lit "[" | TArrE => lit "]"
  | TSep => lit "," | TKey => lit ":"
  | TStr => lit "string" | TInt => lit "int" | TFloat => lit "float"
  | TBool _ => lit "bool" | TNull => lit "null"
  | TEOS => lit "eos"
  end.

(* token.cpp 13-26, 342-366: which tokens have a value_, and the string it points at
   (buf is the reader's buffer) *)
Definition value_text (t : token) (buf : str) : option str :=
  match t with
  | TStr | TInt | TFloat => Some buf
  | TBool b => Some (if b then lit "true" else lit "false")
  | _ => None
  end.

(* token.cpp 96-108: Token::print *)
Definition token_text (t : token) (buf : str) : str :=
  lit "<Token " ++ type_text t ++
  (match value_text t buf with Some v => lit ": " ++ v | None => [] end) ++ lit ">".

(* The format string and the arguments of each call of Reader::error. *)
Definition call (c : cause) : str * list varg :=
  match c with
  | EComment => (lit "comments are not allowed", [])                                   (* token.cpp 125 *)
  | ELiteral l => (lit "expected literal <%s>", [AText l])                             (* token.cpp 144 *)
  | EHex x => (lit "non-hex digit in unicode code point <%c>", [achar x])              (* token.cpp 160, 211 *)
  | EUtf8Head x => (lit "invalid UTF-8 header: %x", [achar x])                         (* token.cpp 222 *)
  | EUtf8 => (lit "invalid UTF-8 encoding", [])                                        (* token.cpp 229, 239 *)
  | ENewline => (lit "invalid \n character in a string", [])                           (* token.cpp 250: "\\n" *)
  | EEscape x => (lit "unknown escaped character <%c>", [achar x])                     (* token.cpp 273 *)
  | EString => (lit "unexpected end of string", [])                                    (* token.cpp 281 *)
  | EChar x => (lit "unexpected character <%c>", [achar x])                            (* token.cpp 371 *)
  | EUnexpected got exp buf =>                                                         (* reader.cpp 51 *)
    (lit "unexpected token <%s>, expecting <%s>", [AText (token_text got buf); AText (type_text exp)])
  | EUnknown got buf => (lit "unknown expected token <%s>", [AText (token_text got buf)])   (* parser.cpp 322 *)
  | EOther msg => (lit "%s", [AText msg])     (* simplification: the application formats a string *)
  end.

(* reader.tcc 24-26: the stringstream's content is moved into the error (error.h 55) *)
Definition error_string (e : rerror) : outcome (list cell) :=
  let '(fmt, args) := call (err_cause e) in
  match expand fmt args with
  | None => UB
  | Some msg =>
    do m <- verrorFormat msg;
    Ok (map Some (dec (err_line e) ++ lit ":" ++ dec (err_pos e) ++ lit ": ") ++ m)
  end.

(* std::logic_error::what() is c_str(): its reader stops at the first NUL.  Reading an
   unwritten byte is undefined; the end of the string is a NUL. *)
Fixpoint what_text (s : list cell) : outcome str :=
  match s with
  | [] => Ok []
  | None :: _ => UB
  | Some c :: s' => if c =? 0 then Ok [] else do t <- what_text s'; Ok (c :: t)
  end.
Definition error_what (e : rerror) : outcome str := do s <- error_string e; what_text s.
