(** token/token.go and token/position.go. *)
From Coq Require Import String.
From Verif Require Import Base.
Open Scope string_scope.
Open Scope list_scope.
Open Scope Z_scope.

(** token/token.go:22-133, the constants in declaration order ([iota]). The
    lower-case markers are kept: they are reachable through [Lookup]. *)
Inductive token : Type :=
| ILLEGAL | EOF | COMMENT
| literal_begin | IDENT
| numeric_begin | INT | UINT | NINT | FLOAT | FLOAT16 | FLOAT32 | FLOAT64 | numeric_end
| TSTR | TEXT | TEXT_LITERAL | BYTES | BSTR | BOOL | TRUE | FALSE | NIL | NULL | ANY
| literal_end
| operator_begin
| MINUS | LPAREN | LBRACK | LBRACE | RPAREN | RBRACK | RBRACE
| COMMA | PERIOD | COLON
| ASSIGN | ARROW_MAP | OPTIONAL | TYPE_CHOICE | GROUP_CHOICE
| TYPE_CHOICE_ASSIGN | GROUP_CHOICE_ASSIGN | AMPERSAND | HASH
| LEFT_ANGLE_BRACKET | RIGHT_ANGLE_BRACKET
| INCLUSIVE_BOUND | EXCLUSIVE_BOUND
| ZERO_OR_MORE | ONE_OR_MORE | UNWRAP
| operator_end
| control_operators_begin
| SIZE | BITS | REGEXP | CBOR | CBORSEQ | WITHIN | AND
| LT | LE | GT | GE | EQ | NE | DEFAULT
| PLUS | CAT | DET | ABNF | ABNFB | FEATURE
| control_operators_end
| parser_specific_begin
| UNEXPECTED | EOL
| parser_specific_end.

(** All token constants in iota order, token/token.go:22-133. *)
Definition allTokens : list token :=
  [ILLEGAL; EOF; COMMENT;
   literal_begin; IDENT;
   numeric_begin; INT; UINT; NINT; FLOAT; FLOAT16; FLOAT32; FLOAT64; numeric_end;
   TSTR; TEXT; TEXT_LITERAL; BYTES; BSTR; BOOL; TRUE; FALSE; NIL; NULL; ANY;
   literal_end;
   operator_begin;
   MINUS; LPAREN; LBRACK; LBRACE; RPAREN; RBRACK; RBRACE;
   COMMA; PERIOD; COLON;
   ASSIGN; ARROW_MAP; OPTIONAL; TYPE_CHOICE; GROUP_CHOICE;
   TYPE_CHOICE_ASSIGN; GROUP_CHOICE_ASSIGN; AMPERSAND; HASH;
   LEFT_ANGLE_BRACKET; RIGHT_ANGLE_BRACKET;
   INCLUSIVE_BOUND; EXCLUSIVE_BOUND;
   ZERO_OR_MORE; ONE_OR_MORE; UNWRAP;
   operator_end;
   control_operators_begin;
   SIZE; BITS; REGEXP; CBOR; CBORSEQ; WITHIN; AND;
   LT; LE; GT; GE; EQ; NE; DEFAULT;
   PLUS; CAT; DET; ABNF; ABNFB; FEATURE;
   control_operators_end;
   parser_specific_begin;
   UNEXPECTED; EOL;
   parser_specific_end].

Definition token_eq_dec (a b : token) : {a = b} + {a <> b}.
Proof. decide equality. Defined.

(** Go's [==] on tokens. *)
Definition teq (a b : token) : bool := if token_eq_dec a b then true else false.

Fixpoint indexOf (t : token) (l : list token) (i : Z) : Z :=
  match l with
  | [] => -1
  | x :: r => if teq t x then i else indexOf t r (i + 1)
  end.

(** The integer value of a token constant (its iota). *)
Definition tokIdx (t : token) : Z := indexOf t allTokens 0.

(** token/token.go:140-239, the array [tokens]; missing entries are "". *)
Definition tokenName (t : token) : bytes :=
  str match t with
  | ILLEGAL => "ILLEGAL" | EOF => "EOF" | COMMENT => "COMMENT"
  | IDENT => "IDENT" | INT => "int" | UINT => "uint" | NINT => "nint"
  | FLOAT => "float" | FLOAT16 => "float16" | FLOAT32 => "float32" | FLOAT64 => "float64"
  | TSTR => "tstr" | TEXT => "text" | TEXT_LITERAL => "text_literal"
  | BYTES => "bytes" | BSTR => "bstr"
  | BOOL => "bool" | TRUE => "true" | FALSE => "false" | NIL => "nil" | NULL => "null" | ANY => "any"
  | MINUS => "-" | LPAREN => "(" | LBRACK => "[" | LBRACE => "{"
  | RPAREN => ")" | RBRACK => "]" | RBRACE => "}"
  | COMMA => "," | PERIOD => "." | COLON => ":"
  | ASSIGN => "=" | ARROW_MAP => "=>" | OPTIONAL => "?" | TYPE_CHOICE => "/"
  | GROUP_CHOICE => "//" | TYPE_CHOICE_ASSIGN => "/=" | GROUP_CHOICE_ASSIGN => "//="
  | AMPERSAND => "&" | HASH => "#"
  | LEFT_ANGLE_BRACKET => "<" | RIGHT_ANGLE_BRACKET => ">"
  | INCLUSIVE_BOUND => ".." | EXCLUSIVE_BOUND => "..."
  | ZERO_OR_MORE => "*" | ONE_OR_MORE => "+" | UNWRAP => "~"
  | SIZE => ".size" | BITS => ".bits" | REGEXP => ".regexp" | CBOR => ".cbor"
  | CBORSEQ => ".cborseq" | WITHIN => ".within" | AND => ".and"
  | LT => ".lt" | LE => ".le" | GT => ".gt" | GE => ".ge" | EQ => ".eq" | NE => ".ne"
  | DEFAULT => ".default"
  | PLUS => ".plus" | CAT => ".cat" | DET => ".det" | ABNF => ".abnf" | ABNFB => ".abnfb"
  | FEATURE => ".feature"
  | UNEXPECTED => "UNEXPECTED" | EOL => "EOL"
  | numeric_begin => "INTERNAL_MARKER_numeric_begin"
  | numeric_end => "INTERNAL_MARKER_numeric_end"
  | literal_begin => "INTERNAL_MARKER_literal_begin"
  | literal_end => "INTERNAL_MARKER_literal_end"
  | operator_begin => "INTERNAL_MARKER_operator_begin"
  | operator_end => "INTERNAL_MARKER_operator_end"
  | control_operators_begin => "INTERNAL_MARKER_control_operators_begin"
  | control_operators_end => "INTERNAL_MARKER_control_operators_end"
  | parser_specific_begin => "" | parser_specific_end => ""
  end.

(** len(tokens): one past the largest keyed index, which is EOL. *)
Definition lenTokens : Z := tokIdx EOL + 1.

(** token/token.go:241-250, [Token.String], for any Go int. *)
Definition tokenStringZ (t : Z) : bytes :=
  let out := if (0 <=? t) && (t <? lenTokens)
             then tokenName (nth (Z.to_nat t) allTokens ILLEGAL) else [] in
  match out with [] => fmtD t | _ => out end.

(** [Token.String] on a token constant. *)
Definition tokenString (t : token) : bytes := tokenStringZ (tokIdx t).

(** token/token.go:302-305, [inRange]. *)
Definition inRange (x lower upper : token) : bool :=
  (tokIdx lower <? tokIdx x) && (tokIdx x <? tokIdx upper).

(** token/token.go:298-300, [IsControlOp]. *)
Definition isControlOp (t : token) : bool :=
  inRange t control_operators_begin control_operators_end.

(** token/token.go:307-309, [IsNumeric]. *)
Definition isNumeric (t : token) : bool := inRange t numeric_begin numeric_end.

(** token/token.go:311-322, [init]: the keyword map, as the list of its
    insertions in order. The first loop runs over INT <= i < literal_end (which
    includes the marker numeric_end), the second over the control operators. *)
Definition keywordInserts : list (bytes * token) :=
  map (fun t => (tokenName t, t))
      (filter (fun t => (tokIdx INT <=? tokIdx t) && (tokIdx t <? tokIdx literal_end)) allTokens
       ++ filter (fun t => (tokIdx control_operators_begin + 1 <=? tokIdx t)
                           && (tokIdx t <? tokIdx control_operators_end)) allTokens).

(** Go map read after a sequence of insertions: the last insertion wins. *)
Definition mapGet (m : list (bytes * token)) (k : bytes) : option token :=
  match find (fun kv => beq (fst kv) k) (rev m) with
  | Some kv => Some (snd kv)
  | None => None
  end.

(** token/token.go:254-259, [Lookup]. *)
Definition lookup (s : bytes) : token :=
  match mapGet keywordInserts s with Some t => t | None => IDENT end.

(** token/token.go:18-20, [LOWEST]. *)
Definition LOWEST : Z := 0.

(** token/token.go:262-285, [Precedence]. *)
Definition precedence (t : token) : Z :=
  match t with
  | EQ | TYPE_CHOICE_ASSIGN | GROUP_CHOICE_ASSIGN => 1
  | GROUP_CHOICE => 2
  | COMMA => 3
  | ZERO_OR_MORE | ONE_OR_MORE | OPTIONAL => 4
  | ARROW_MAP | COLON => 5
  | TYPE_CHOICE => 6
  | INCLUSIVE_BOUND | EXCLUSIVE_BOUND => 7
  | AMPERSAND | UNWRAP => 8
  | _ => if isControlOp t then 7 else LOWEST
  end.

(** token/token.go:287-296, [IsLiteral]. *)
Definition isLiteral (t : token) (literal : bytes) : bool :=
  match t with
  | INT | UINT | NINT | FLOAT | FLOAT16 | FLOAT32 | FLOAT64 => negb (beq literal (tokenName t))
  | TEXT_LITERAL => true
  | _ => false
  end.

(** token/position.go:7-12, [Position]. *)
Record position : Type := mkPos {
  pFile : bytes;
  pOffset : Z;
  pLine : Z;
  pColumn : Z
}.

(** The zero value [token.Position{}]. *)
Definition zeroPos : position := mkPos [] 0 0 0.

(** [token.Position{Offset: -1}], used by several End methods. *)
Definition noPos : position := mkPos [] (-1) 0 0.

(** token/position.go:35-42, [Position.To]. *)
Definition posTo (p : position) (offset : Z) : position :=
  mkPos (pFile p) (pOffset p + offset) (pLine p) (pColumn p + offset).

(** token/position.go:14-26, [Position.String]. *)
Definition posString (p : position) : bytes :=
  (match pFile p with [] => [] | _ => pFile p ++ str ":" end)
  ++ fmtD (pLine p)
  ++ (if 0 <? pColumn p then str ":" ++ fmtD (pColumn p) else []).

(** token/position.go:44-46, [PositionRange]. *)
Record positionRange : Type := mkRange { rStart : position; rEnd : position }.

(** token/position.go:48-58, [PositionRange.String]. *)
Definition rangeString (r : positionRange) : bytes :=
  str "line " ++ fmtD (pLine (rStart r)) ++ str ", column " ++ fmtD (pColumn (rStart r))
  ++ (if pLine (rStart r) =? pLine (rEnd r)
      then str " ~ " ++ fmtD (pColumn (rEnd r))
      else str " to line " ++ fmtD (pLine (rEnd r)) ++ str ", column " ++ fmtD (pColumn (rEnd r))).
