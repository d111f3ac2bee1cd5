(** Specification vocabulary for whole token sequences. The only thing taken
    from the lexer model is the record [tokInfo] (token, position, literal). *)
From Coq Require Import String.
From Verif Require Import Base Utf8 Token Ext LexSpec.
From Verif Require Import Lexer.
Open Scope string_scope.
Open Scope list_scope.
Open Scope Z_scope.

(** The literal that goes with a token's source text [text], followed by [rest]. *)
Inductive litOf : token -> bytes -> bytes -> bytes -> Prop :=
| lit_comment : forall lit rest, litOf COMMENT (59 :: lit) rest lit
| lit_text : forall lit rest, ~ In 34 lit -> litOf TEXT_LITERAL (34 :: lit ++ [34]) rest lit
| lit_open : forall lit b rest, ~ In 34 (lit ++ [b]) -> (rest = [] \/ hd 0 rest = 10) ->
    litOf TEXT_LITERAL (34 :: lit ++ [b]) rest lit
| lit_same : forall t text rest, t <> COMMENT -> hd 0 text <> 34 -> litOf t text rest text.

(** A token with its text: EOF has neither text nor literal and nothing follows
    it; any other token has a non-empty text without newline bytes. *)
Definition tokText (tk : token) (text rest lit : bytes) : Prop :=
  (tk = EOF /\ text = [] /\ rest = [] /\ lit = []) \/
  (tk <> EOF /\ text <> [] /\ ~ In 10 text /\ litOf tk text rest lit).

(** [covers s k ts k']: reading [s] from byte [k], the tokens [ts] are laid out
    one after the other, separated by blanks only, and end at byte [k']. *)
Inductive covers (s : bytes) : nat -> list tokInfo -> nat -> Prop :=
| cov_nil : forall k, covers s k [] k
| cov_tok : forall k g text rest t ts k',
    skipn k s = g ++ text ++ rest -> allBlank g ->
    tokText (tTok t) text rest (tLit t) ->
    tPos t = posAt s (k + length g) ->
    covers s (k + length g + length text) ts k' ->
    covers s k (t :: ts) k'.

(** The bytes of identifiers: letters, '@' (64), '_' (95), '$' (36) to start
    with; also digits, '-' (45), '.' (46) after that. *)
Definition identStart (c : Z) : Prop :=
  65 <= c <= 90 \/ 97 <= c <= 122 \/ c = 64 \/ c = 95 \/ c = 36.
Definition identChar (c : Z) : Prop := identStart c \/ 48 <= c <= 57 \/ c = 45 \/ c = 46.
Definition digit (c : Z) : Prop := 48 <= c <= 57.
Definition letter (c : Z) : Prop := 65 <= c <= 90 \/ 97 <= c <= 122.
Definition hexDigit (c : Z) : Prop := digit c \/ 65 <= c <= 70 \/ 97 <= c <= 102.
Definition octDigit (c : Z) : Prop := 48 <= c <= 55.
Definition binDigit (c : Z) : Prop := c = 48 \/ c = 49.

(** The type keywords and the control operators, with their spelling. (The two
    entries "text_literal" and "INTERNAL_MARKER_numeric_end" are accidents of
    how /repo/token/token.go builds its table.) *)
Definition keywordTable : list (bytes * token) := Eval cbv in
  [ (str "int", INT); (str "uint", UINT); (str "nint", NINT);
    (str "float", FLOAT); (str "float16", FLOAT16); (str "float32", FLOAT32); (str "float64", FLOAT64);
    (str "INTERNAL_MARKER_numeric_end", numeric_end);
    (str "tstr", TSTR); (str "text", TEXT); (str "text_literal", TEXT_LITERAL);
    (str "bytes", BYTES); (str "bstr", BSTR);
    (str "bool", BOOL); (str "true", TRUE); (str "false", FALSE);
    (str "nil", NIL); (str "null", NULL); (str "any", ANY);
    (str ".size", SIZE); (str ".bits", BITS); (str ".regexp", REGEXP); (str ".cbor", CBOR);
    (str ".cborseq", CBORSEQ); (str ".within", WITHIN); (str ".and", AND);
    (str ".lt", LT); (str ".le", LE); (str ".gt", GT); (str ".ge", GE); (str ".eq", EQ); (str ".ne", NE);
    (str ".default", DEFAULT);
    (str ".plus", PLUS); (str ".cat", CAT); (str ".det", DET); (str ".abnf", ABNF); (str ".abnfb", ABNFB);
    (str ".feature", FEATURE) ].

(** [kindOf w t]: [t] is the kind of the word [w]. *)
Definition kindOf (w : bytes) (t : token) : Prop :=
  In (w, t) keywordTable \/ (t = IDENT /\ forall t', ~ In (w, t') keywordTable).

(** Punctuation with its spelling. *)
Definition punctTable : list (bytes * token) := Eval cbv in
  [ (str "-", MINUS); (str "?", OPTIONAL); (str ":", COLON); (str "(", LPAREN); (str ")", RPAREN);
    (str "{", LBRACE); (str "}", RBRACE); (str "[", LBRACK); (str "]", RBRACK);
    (str "+", ONE_OR_MORE); (str "*", ZERO_OR_MORE); (str "<", LEFT_ANGLE_BRACKET);
    (str ">", RIGHT_ANGLE_BRACKET); (str "#", HASH); (str "~", UNWRAP); (str ",", COMMA);
    (str "&", AMPERSAND); (str "=", ASSIGN); (str "=>", ARROW_MAP);
    (str "/", TYPE_CHOICE); (str "//", GROUP_CHOICE); (str "/=", TYPE_CHOICE_ASSIGN);
    (str "//=", GROUP_CHOICE_ASSIGN); (str ".", PERIOD); (str "..", INCLUSIVE_BOUND);
    (str "...", EXCLUSIVE_BOUND) ].

(** [lexeme tk text lit]: [text] is a lexeme of kind [tk] with literal [lit]. *)
Inductive lexeme : token -> bytes -> bytes -> Prop :=
| lx_word : forall c w tk, identStart c -> Forall identChar w -> kindOf (c :: w) tk ->
    lexeme tk (c :: w) (c :: w)
| lx_dotted : forall w tk, w <> [] -> Forall letter w -> kindOf (46 :: w) tk ->
    lexeme tk (46 :: w) (46 :: w)
| lx_int : forall w, w <> [] -> Forall digit w -> lexeme INT w w
| lx_hex : forall w, Forall hexDigit w -> lexeme INT (48 :: 120 :: w) (48 :: 120 :: w)
| lx_bin : forall w, Forall binDigit w -> lexeme INT (48 :: 98 :: w) (48 :: 98 :: w)
| lx_oct : forall w, Forall octDigit w -> lexeme INT (48 :: 111 :: w) (48 :: 111 :: w)
| lx_float : forall a b, a <> [] -> b <> [] -> Forall digit a -> Forall digit b ->
    lexeme FLOAT (a ++ 46 :: b) (a ++ 46 :: b)
| lx_punct : forall w tk, In (w, tk) punctTable -> lexeme tk w w
| lx_text : forall w, decodable w -> ~ In 34 w -> ~ In 10 w -> lexeme TEXT_LITERAL (34 :: w ++ [34]) w
| lx_comment : forall w, decodable w -> ~ In 10 w -> lexeme COMMENT (59 :: w) w.

(** What may follow a lexeme in a spaced source: a blank or the end; after a
    comment a newline or the end. *)
Definition ends (tk : token) (rest : bytes) : Prop :=
  rest = [] \/ exists c r, rest = c :: r /\ blank c /\ (tk = COMMENT -> c = 10).

(** [spaced s items w]: [s] is written as blanks and lexemes in turn, with the
    final blanks [w]. *)
Inductive spaced : bytes -> list (bytes * token * bytes * bytes) -> Prop :=
| sp_nil : forall w, allBlank w -> spaced w []
| sp_cons : forall g tk text lit rest items,
    allBlank g -> lexeme tk text lit -> ends tk rest -> spaced rest items ->
    spaced (g ++ text ++ rest) ((g, tk, text, lit) :: items).

(** The tokens such a source should give when it starts at byte [k] of [s]. *)
Fixpoint expected (s : bytes) (k : nat) (items : list (bytes * token * bytes * bytes)) : list tokInfo :=
  match items with
  | [] => [mkTok EOF (posAt s (length s)) []]
  | (g, tk, text, lit) :: r =>
    mkTok tk (posAt s (k + length g)) lit :: expected s (k + length g + length text) r
  end.
