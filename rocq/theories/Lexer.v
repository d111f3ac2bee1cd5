(** lexer/lexer.go *)
From Coq Require Import String.
From Verif Require Import Base Utf8 Token Ext.
Open Scope string_scope.
Open Scope list_scope.
Open Scope Z_scope.

(** lexer/lexer.go:13-15, the pseudo rune at the end of the source. *)
Definition EOFch : Z := -1.

(** lexer/lexer.go:25-28, [Error] (only Pos.Offset is ever set). *)
Record lexError : Type := mkLexError { leOffset : Z; leMsg : bytes }.

(** lexer/lexer.go:30-38, [Lexer]. [lineOffsets] in the order of the Go slice. *)
Record lexer : Type := mkLexer {
  src : bytes;
  chr : Z;
  offset : Z;
  rdOffset : Z;
  errCount : Z;
  errors : list lexError;
  lineOffsets : list Z
}.

(** Updates of single fields. *)
Definition setCursor (l : lexer) (c o r : Z) : lexer :=
  mkLexer (src l) c o r (errCount l) (errors l) (lineOffsets l).
Definition setLines (l : lexer) (lo : list Z) : lexer :=
  mkLexer (src l) (chr l) (offset l) (rdOffset l) (errCount l) (errors l) lo.

(** lexer/lexer.go:40-49, [addLineOffset]. [lineOffsets] is never empty
    (NewLexer puts -1 first), so the Go index expression cannot fail. *)
Definition addLineOffset (l : lexer) (off : Z) : lexer :=
  if off <? last (lineOffsets l) 0 then l else setLines l (lineOffsets l ++ [off]).

(** lexer/lexer.go:198-210, [next]. *)
Definition next (l : lexer) : lexer :=
  if Z.of_nat (length (src l)) <=? rdOffset l then setCursor l EOFch (offset l) (rdOffset l)
  else
    let '(ch, w) := decodeRune (skipn (Z.to_nat (rdOffset l)) (src l)) in
    if ch =? RuneError then l
    else setCursor l ch (rdOffset l) (rdOffset l + w).

(** lexer/lexer.go:221-226, [peek]. *)
Definition peek (l : lexer) : Z :=
  if rdOffset l <? Z.of_nat (length (src l)) then nth (Z.to_nat (rdOffset l)) (src l) 0 else 0.

(** lexer/lexer.go:337-342 *)
Definition isLetter (x : Z) : bool :=
  ((65 <=? x) && (x <=? 90)) || ((97 <=? x) && (x <=? 122)).
(** lexer/lexer.go:365-370 *)
Definition isDigit (x : Z) : bool := (48 <=? x) && (x <=? 57).
(** lexer/lexer.go:344-349 *)
Definition isHex (x : Z) : bool :=
  isDigit x || ((65 <=? x) && (x <=? 70)) || ((97 <=? x) && (x <=? 102)).
(** lexer/lexer.go:351-356 *)
Definition isOctal (x : Z) : bool := (48 <=? x) && (x <=? 55).
(** lexer/lexer.go:358-363 *)
Definition isBinary (x : Z) : bool := (x =? 48) || (x =? 49).
(** lexer/lexer.go:372-377: letters, '@' (64), '_' (95), '$' (36) *)
Definition isIdentifierStart (x : Z) : bool :=
  ((65 <=? x) && (x <=? 90)) || ((97 <=? x) && (x <=? 122)) || (x =? 64) || (x =? 95) || (x =? 36).
(** lexer/lexer.go:379-384: also digits, '-' (45), '.' (46) *)
Definition isIdentifierBodyChar (x : Z) : bool :=
  isIdentifierStart x || isDigit x || (x =? 45) || (x =? 46).
(** lexer/lexer.go:391-396: 'x' (120), 'b' (98), 'o' (111) *)
Definition isxboDigitStart (x : Z) : bool := (x =? 120) || (x =? 98) || (x =? 111).

(** Fuel for the loops below. A loop that runs longer than this never ends
    (each [next] either advances in the source, reaches EOF, or changes nothing);
    see LexerProofs.v, [loopNext_hang]. *)
Definition loopFuel (l : lexer) : nat := S (S (length (src l))).

(** The Go loop [for cond(l.chr) { l.next() }]. *)
Fixpoint loopNext (cond : Z -> bool) (fuel : nat) (l : lexer) : res lexer :=
  if cond (chr l) then
    match fuel with
    | O => Hang
    | S f => loopNext cond f (next l)
    end
  else Ok l.

(** lexer/lexer.go:213, the loop condition of [skipWhitespace]. *)
Definition isSpace (c : Z) : bool := (c =? 32) || (c =? 13) || (c =? 10) || (c =? 9).

(** lexer/lexer.go:212-219, [skipWhitespace]. *)
Fixpoint skipWhitespace (fuel : nat) (l : lexer) : res lexer :=
  if isSpace (chr l) then
    match fuel with
    | O => Hang
    | S f => skipWhitespace f (next (if chr l =? 10 then addLineOffset l (offset l) else l))
    end
  else Ok l.

(** lexer/lexer.go:228-237, [scanComment]. *)
Definition scanComment (l : lexer) : res (bytes * lexer) :=
  l' <- loopNext (fun c => (0 <=? c) && negb (c =? 10)) (loopFuel l) l;;
  s <- gslice (src l') (offset l) (offset l');;
  Ok (s, l').

(** lexer/lexer.go:239-247, [scanIdentifier]. *)
Definition scanIdentifier (l : lexer) : res (bytes * lexer) :=
  l' <- loopNext isIdentifierBodyChar (loopFuel l) l;;
  s <- gslice (src l') (offset l) (offset l');;
  Ok (s, l').

(** lexer/lexer.go:249-257, [scanControlOp]. *)
Definition scanControlOp (l : lexer) : res (bytes * lexer) :=
  l' <- loopNext isLetter (loopFuel l) l;;
  s <- gslice (src l') (offset l) (offset l');;
  Ok (s, l').

(** lexer/lexer.go:295-317, [scanHexDigits], [scanBinaryDigits], [scanOctalDigits]. *)
Definition scanBaseDigits (cond : Z -> bool) (prefix : bytes) (l : lexer) : res (token * bytes * lexer) :=
  l' <- loopNext cond (loopFuel l) l;;
  s <- gslice (src l') (offset l) (offset l');;
  Ok (INT, prefix ++ s, l').

(** lexer/lexer.go:286-291, the digit loop of [scanNumber]. '.' is 46. *)
Fixpoint numberLoop (X : Ext) (fuel : nat) (tok : token) (l : lexer) : res (token * lexer) :=
  if uniIsDigit X (chr l) || ((chr l =? 46) && uniIsDigit X (peek l)) then
    match fuel with
    | O => Hang
    | S f =>
      let l1 := next l in
      let tok1 := if (chr l1 =? 46) && negb (peek l1 =? 46) then FLOAT else tok in
      numberLoop X f tok1 l1
    end
  else Ok (tok, l).

(** The decimal part of [scanNumber], lexer/lexer.go:283-292. *)
Definition scanDecimal (X : Ext) (offsetPre : Z) (l : lexer) : res (token * bytes * lexer) :=
  '(tok, l') <- numberLoop X (loopFuel l) INT l;;
  s <- gslice (src l') offsetPre (offset l');;
  Ok (tok, s, l').

(** lexer/lexer.go:259-293, [scanNumber]. After [l.next()] the current rune is
    one of 'x', 'b', 'o' (it was just peeked), so [unicode.ToLower] is the
    identity there and is left out. '0' is 48. *)
Definition scanNumber (X : Ext) (l : lexer) : res (token * bytes * lexer) :=
  if (chr l =? 48) && isxboDigitStart (peek l) then
    let l1 := next l in
    if chr l1 =? 120 then scanBaseDigits isHex (str "0x") (next l1)
    else if chr l1 =? 98 then scanBaseDigits isBinary (str "0b") (next l1)
    else if chr l1 =? 111 then scanBaseDigits isOctal (str "0o") (next l1)
    else scanDecimal X (offset l) l1
  else scanDecimal X (offset l) l.

(** lexer/lexer.go:386-389, [error]. *)
Definition addError (l : lexer) (off : Z) (msg : bytes) : lexer :=
  mkLexer (src l) (chr l) (offset l) (rdOffset l) (errCount l + 1)
          (errors l ++ [mkLexError off msg]) (lineOffsets l).

Definition msgNewline : bytes := str "unexpected newline character before string termination".

(** lexer/lexer.go:322-332, the loop of [scanString]. The double quote is 34. *)
Fixpoint stringLoop (fuel : nat) (l : lexer) : res lexer :=
  if (chr l <? 0) || (chr l =? 10) then Ok (addError l (offset l) msgNewline)
  else if chr l =? 34 then Ok (next l)
  else match fuel with
       | O => Hang
       | S f => stringLoop f (next l)
       end.

(** lexer/lexer.go:319-335, [scanString]. *)
Definition scanString (l : lexer) : res (bytes * lexer) :=
  l' <- stringLoop (loopFuel l) l;;
  s <- gslice (src l') (offset l) (offset l' - 1);;
  Ok (s, l').

(** The one-character cases of the switch at lexer/lexer.go:88-184. *)
Definition punct (c : Z) : option token :=
  if c =? 45 then Some MINUS                      (* - *)
  else if c =? 63 then Some OPTIONAL              (* ? *)
  else if c =? 58 then Some COLON                 (* : *)
  else if c =? 40 then Some LPAREN
  else if c =? 41 then Some RPAREN
  else if c =? 123 then Some LBRACE
  else if c =? 125 then Some RBRACE
  else if c =? 91 then Some LBRACK
  else if c =? 93 then Some RBRACK
  else if c =? 43 then Some ONE_OR_MORE           (* + *)
  else if c =? 42 then Some ZERO_OR_MORE          (* * *)
  else if c =? 60 then Some LEFT_ANGLE_BRACKET    (* < *)
  else if c =? 62 then Some RIGHT_ANGLE_BRACKET   (* > *)
  else if c =? 35 then Some HASH                  (* # *)
  else if c =? 126 then Some UNWRAP               (* ~ *)
  else if c =? 44 then Some COMMA                 (* , *)
  else if c =? 38 then Some AMPERSAND             (* & *)
  else None.

(** lexer/lexer.go:88-184, the switch of the default case, after [l.next()]:
    [c] is the consumed rune, [l] the state after consuming it. *)
Definition scanDefault (X : Ext) (c : Z) (l : lexer) : res (token * bytes * lexer) :=
  match punct c with
  | Some t => Ok (t, encodeRune c, l)
  | None =>
    if c =? 59 then                                                   (* ; *)
      '(lit, l') <- scanComment l;; Ok (COMMENT, lit, l')
    else if c =? 61 then                                              (* = *)
      if chr l =? 62 then Ok (ARROW_MAP, str "=>", next l)
      else Ok (ASSIGN, encodeRune c, l)
    else if c =? 47 then                                              (* / *)
      if chr l =? 61 then Ok (TYPE_CHOICE_ASSIGN, str "/=", next l)
      else if (chr l =? 47) && (peek l =? 61) then
        Ok (GROUP_CHOICE_ASSIGN, str "//=", next (next l))
      else if chr l =? 47 then Ok (GROUP_CHOICE, str "//", next l)
      else Ok (TYPE_CHOICE, encodeRune c, l)
    else if c =? 46 then                                              (* . *)
      if (chr l =? 46) && (peek l =? 46) then
        Ok (EXCLUSIVE_BOUND, str "...", next (next l))
      else if chr l =? 46 then Ok (INCLUSIVE_BOUND, str "..", next l)
      else if uniIsLetter X (chr l) then
        '(cop, l') <- scanControlOp l;;
        let lit := encodeRune c ++ cop in
        Ok (lookup lit, lit, l')
      else Ok (PERIOD, encodeRune c, l)
    else if c =? 34 then                                              (* double quote *)
      '(lit, l') <- scanString l;; Ok (TEXT_LITERAL, lit, l')
    else if c =? EOFch then Ok (EOF, [], l)
    else Ok (ILLEGAL, encodeRune c, l)
  end.

(** One scanned token: what [Scan] returns. *)
Record tokInfo : Type := mkTok { tTok : token; tPos : position; tLit : bytes }.

(** lexer/lexer.go:69-196, [Scan]. *)
Definition scan (X : Ext) (l0 : lexer) : res (tokInfo * lexer) :=
  l <- skipWhitespace (loopFuel l0) l0;;
  let startOffset := offset l in
  let c := chr l in
  '(tok, lit, l') <-
    (if isIdentifierStart c then
       '(lit, l1) <- scanIdentifier l;;
       Ok (if (2 <? Z.of_nat (length lit)) then lookup lit else IDENT, lit, l1)
     else if isDigit c then scanNumber X l
     else scanDefault X c (next l));;
  let lenLines := Z.of_nat (length (lineOffsets l')) in
  Ok (mkTok tok (mkPos [] startOffset lenLines (startOffset - last (lineOffsets l') 0)) lit, l').

(** lexer/lexer.go:52-66, [NewLexer]; [append(src, 32)] by value (aliasing of
    the caller's array is modelled separately in SliceModel.v). *)
Definition newLexer (s : bytes) : lexer :=
  next (mkLexer (s ++ [32]) 0 0 0 0 [] [-1]).

(** The usual driver loop (examples/lexer/main.go:24-30, cmd/cddlc/commands.go:50-59):
    Scan until EOF, the EOF token included. *)
Fixpoint scanLoop (X : Ext) (n : nat) (l : lexer) : res (list tokInfo) :=
  match n with
  | O => NoFuel
  | S n' =>
    '(t, l') <- scan X l;;
    if teq (tTok t) EOF then Ok [t]
    else ts <- scanLoop X n' l';; Ok (t :: ts)
  end.

(** Scan everything with at most [n] calls. *)
Definition scanAll (X : Ext) (n : nat) (s : bytes) : res (list tokInfo) :=
  scanLoop X n (newLexer s).

(** [n] successive calls of Scan: the tokens and the final state. *)
Fixpoint scans (X : Ext) (n : nat) (l : lexer) : res (list tokInfo * lexer) :=
  match n with
  | O => Ok ([], l)
  | S n' =>
    '(t, l1) <- scan X l;;
    '(ts, l2) <- scans X n' l1;;
    Ok (t :: ts, l2)
  end.
