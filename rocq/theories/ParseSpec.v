(** What the parser accepts, as an attribute grammar over token lists. Written
    independently of parser/parser.go's functions: no precedences, no tables of
    null and left denotations, no parser state. Taken from the model: the syntax
    tree type, the deferred checks [task], and the numeral readers [parseInt],
    [parseUint] (characterised by C46). *)
From Coq Require Import String.
From Verif Require Import Base Token Strconv Ext Lexer Ast Env Diag Parser.
Open Scope string_scope.
Open Scope list_scope.
Open Scope Z_scope.

(** The token that follows [ts], when [nx] follows the whole. *)
Definition nextOf (ts : list tokInfo) (nx : tokInfo) : tokInfo := hd nx ts.

(** The last token of [ts], when [t] came before it. *)
Definition lastOf (ts : list tokInfo) (t : tokInfo) : tokInfo := last ts t.

(** The infix operators, and the comma. *)
Definition infixTok (t : token) : bool :=
  match t with
  | COLON | ARROW_MAP | TYPE_CHOICE | GROUP_CHOICE | LT | LE | GT | GE | EQ | NE
  | SIZE | REGEXP | BITS | INCLUSIVE_BOUND | EXCLUSIVE_BOUND | ZERO_OR_MORE | ONE_OR_MORE
  | COMMA => true
  | _ => false
  end.

(** An entry is over after a comma, or before a token that is no operator. *)
Definition over (lst nx : token) : Prop := lst = COMMA \/ infixTok nx = false.

Definition commentTok (t : tokInfo) : Prop := tTok t = COMMENT.

Definition commentOf (t : tokInfo) : comment := mkComment (tPos t) (tLit t).

(** A comment on the line of the token before it. *)
Definition trailing (before c : tokInfo) : Prop :=
  tTok c = COMMENT /\ pLine (tPos before) = pLine (tPos c).

Definition floatTok (t : token) : Prop := In t [FLOAT; FLOAT16; FLOAT32; FLOAT64].

(** Entries made of one token, given the kind of the token after it. *)
Inductive Atom (X : Ext) : tokInfo -> token -> node -> list task -> Prop :=
| A_key : forall p w,
    Atom X (mkTok IDENT p w) COLON (NIdentifier (mkIdent p w)) []
| A_socket : forall p w nx, nx <> COLON ->
    Atom X (mkTok IDENT p (36 :: w)) nx (NIdentifier (mkIdent p (36 :: w))) []
| A_ref : forall p c w nx, nx <> COLON -> c <> 36 ->
    Atom X (mkTok IDENT p (c :: w)) nx (NIdentifier (mkIdent p (c :: w))) [TExists (c :: w) p]
| A_bool : forall p w nx, Atom X (mkTok BOOL p w) nx (NBooleanType p BOOL) []
| A_true : forall t p nx, t = TRUE \/ t = FALSE ->
    Atom X (mkTok t p (str "true")) nx (NBooleanLiteral (mkRange p (posTo p 3)) true) []
| A_false : forall t p nx, t = TRUE \/ t = FALSE ->
    Atom X (mkTok t p (str "false")) nx (NBooleanLiteral (mkRange p (posTo p 4)) false) []
| A_tstr : forall t p w nx, t = TSTR \/ t = TEXT -> Atom X (mkTok t p w) nx (NTstrType p t) []
| A_text : forall p w nx, Atom X (mkTok TEXT_LITERAL p w) nx (NTextLiteral p TEXT_LITERAL w) []
| A_floatType : forall t p nx, floatTok t -> Atom X (mkTok t p (tokenName t)) nx (NFloatType p t 0) []
| A_floatLit : forall t p w nx b, floatTok t -> w <> tokenName t -> xParseFloat X w = Some b ->
    Atom X (mkTok t p w) nx (NFloatLiteral (mkRange p (posTo p (zlen w - 1))) t b) []
| A_uint : forall p nx, Atom X (mkTok UINT p (str "uint")) nx (NUintType (mkRange p (posTo p 4)) UINT) []
| A_uintLit : forall p w nx v, w <> str "uint" -> parseUint w = inr v ->
    Atom X (mkTok UINT p w) nx (NUintLiteral (mkUint p UINT v)) []
| A_int : forall p nx, Atom X (mkTok INT p (str "int")) nx (NIntegerType p INT) []
| A_intLit : forall p w nx v, w <> str "int" -> parseInt w = inr v ->
    Atom X (mkTok INT p w) nx (NIntegerLiteral p INT v) []
| A_nint : forall p w nx, Atom X (mkTok NINT p w) nx (NNegativeIntegerType p NINT) []
| A_bstr : forall p w nx, Atom X (mkTok BSTR p w) nx (NBstrType p BSTR) []
| A_bytes : forall p w nx, Atom X (mkTok BYTES p w) nx (NBytesType p BYTES) []
| A_null : forall t p w nx, t = NULL \/ t = NIL -> Atom X (mkTok t p w) nx (NNullType p t) [].

(** The upper bound of an occurrence whose item starts with the token [t]: an
    integer numeral there is the bound (and is read again as the item). *)
Inductive Upper : tokInfo -> option uintLit -> Prop :=
| U_some : forall p w v, w <> str "int" -> parseUint w = inr v ->
    Upper (mkTok INT p w) (Some (mkUint p INT v))
| U_none : forall t, ~ (tTok t = INT /\ tLit t <> str "int") -> Upper t None.

(** The lower bound of an infix occurrence. *)
Inductive Lower : node -> uintLit -> Prop :=
| L_int : forall p t v, 0 <= v -> Lower (NIntegerLiteral p t v) (mkUint p UINT v)
| L_uint : forall u, Lower (NUintLiteral u) u.

(** The name of a member. *)
Inductive Key (op : tokInfo) : node -> ident -> Prop :=
| K_ident : forall i, Key op (NIdentifier i) i
| K_int : forall p t v, Key op (NIntegerLiteral p t v) (mkIdent (tPos op) (fmtD v)).

(** Major type and tag number after '#'. *)
Inductive TagNum : list tokInfo -> token -> option uintLit -> option uintLit -> Prop :=
| G_none : forall nx, nx <> INT -> nx <> FLOAT -> TagNum [] nx None None
| G_int : forall p w nx v, parseUint w = inr v ->
    TagNum [mkTok INT p w] nx (Some (mkUint zeroPos ILLEGAL v)) None
| G_float : forall p a b nx va vb, ~ In 46 a -> ~ In 46 b -> parseUint a = inr va -> parseUint b = inr vb ->
    TagNum [mkTok FLOAT p (a ++ 46 :: b)] nx (Some (mkUint p FLOAT va)) (Some (mkUint p FLOAT vb)).

(** Number literals. *)
Definition isNumber (n : node) : bool :=
  match n with NIntegerLiteral _ _ _ | NFloatLiteral _ _ _ => true | _ => false end.

(** What can be a bound of a range. *)
Definition isBound (n : node) : bool :=
  match n with NIntegerLiteral _ _ _ | NFloatLiteral _ _ _ | NIdentifier _ => true | _ => false end.

(** [Infix op l t v n tk]: the operator token [op] applied to [l] and [v], where
    the right operand's tokens start with [t], is [n], with deferred checks [tk]. *)
Inductive Infix : tokInfo -> node -> tokInfo -> node -> node -> list task -> Prop :=
| I_choice : forall op l t v, tTok op = TYPE_CHOICE \/ tTok op = GROUP_CHOICE ->
    Infix op l t v (NTypeChoice (tPos op) (tTok op) l v) []
| I_compare : forall op l t v, In (tTok op) [LT; LE; GT; GE; EQ; NE] ->
    In (typeOf l) [Some KUintType; Some KIntegerType; Some KFloatType] ->
    Infix op l t v (NComparator (tPos op) (tTok op) (tLit op) (NTypedNil KIntegerType) v) []
| I_size : forall op l t v, tTok op = SIZE ->
    In (typeOf l) [Some KBstrType; Some KUintType; Some KTstrType] ->
    Infix op l t v (NSizeOp (tPos op) SIZE v l) []
| I_regexp : forall op p k t v, tTok op = REGEXP -> tTok t = TEXT_LITERAL \/ tTok t = IDENT ->
    Infix op (NTstrType p k) t v (NRegexp (tPos op) REGEXP (Some (p, k)) v) []
| I_bits : forall op l t v, tTok op = BITS -> Infix op l t v (NBits (tPos op) BITS l v) []
| I_occur : forall op l t v lo up, tTok op = ZERO_OR_MORE \/ tTok op = ONE_OR_MORE ->
    Lower l lo -> Upper t up ->
    Infix op l t v (NNMOccurrence (tPos op) (tTok op) (Some lo) up v) []
| I_boundName : forall op i t v, tTok op = INCLUSIVE_BOUND \/ tTok op = EXCLUSIVE_BOUND ->
    Infix op (NIdentifier i) t v (NRange (tPos op) (tTok op) (NIdentifier i) v)
          [TIdentBound (tTok op) i v]
| I_boundInt : forall op p k a t p' k' b, tTok op = INCLUSIVE_BOUND \/ tTok op = EXCLUSIVE_BOUND ->
    Infix op (NIntegerLiteral p k a) t (NIntegerLiteral p' k' b)
          (NRange (tPos op) (tTok op) (NIntegerLiteral p k a) (NIntegerLiteral p' k' b)) []
| I_boundFloat : forall op r k a t r' k' b, tTok op = INCLUSIVE_BOUND \/ tTok op = EXCLUSIVE_BOUND ->
    Infix op (NFloatLiteral r k a) t (NFloatLiteral r' k' b)
          (NRange (tPos op) (tTok op) (NFloatLiteral r k a) (NFloatLiteral r' k' b)) []
| I_boundIntName : forall op p k a t i, tTok op = INCLUSIVE_BOUND \/ tTok op = EXCLUSIVE_BOUND ->
    Infix op (NIntegerLiteral p k a) t (NIdentifier i)
          (NRange (tPos op) (tTok op) (NIntegerLiteral p k a) (NIdentifier i))
          [TIntBound (iName i) (iPos i) (posTo (iPos i) (zlen (iName i)))]
| I_boundFloatName : forall op r k a t i, tTok op = INCLUSIVE_BOUND \/ tTok op = EXCLUSIVE_BOUND ->
    Infix op (NFloatLiteral r k a) t (NIdentifier i)
          (NRange (tPos op) (tTok op) (NFloatLiteral r k a) (NIdentifier i))
          [TFloatBound (iName i) (iPos i) (posTo (iPos i) (zlen (iName i)))]
| I_boundOther : forall op l t v, tTok op = INCLUSIVE_BOUND \/ tTok op = EXCLUSIVE_BOUND ->
    isNumber l = true -> isBound v = false ->
    Infix op l t v (NRange (tPos op) (tTok op) l NNil) [].

(** [Entry X ts nx n tk]: the tokens [ts], when [nx] is the token after them, are
    an entry with the tree [n] and the deferred checks [tk].

    An entry is: comments (dropped), a primary [Nud], and a [Tail]. In
    [Tail X lst l ts nx n tk] the token [lst] came just before [ts] and [l] is the
    tree so far. The right operand of every operator is again a whole entry, so
    all operators have the same precedence and nest to the right. *)
Inductive Entry (X : Ext) : list tokInfo -> tokInfo -> node -> list task -> Prop :=
| E_intro : forall cms t u tl nx n tk m tk',
    Forall commentTok cms ->
    Nud X (t :: u) (nextOf tl nx) n tk ->
    Tail X (lastOf u t) n tl nx m tk' ->
    Entry X (cms ++ (t :: u) ++ tl) nx m (tk ++ tk')

with Nud (X : Ext) : list tokInfo -> tokInfo -> node -> list task -> Prop :=
| N_atom : forall t nx n tk, Atom X t (tTok nx) n tk -> Nud X [t] nx n tk
| N_group : forall o c es nx ns tk, tTok o = LPAREN -> tTok c = RPAREN ->
    Entries X es c ns tk -> Nud X (o :: es ++ [c]) nx (NGroup (tPos o) (filter isGroupEntry ns)) tk
| N_array : forall o c es nx ns tk, tTok o = LBRACK -> tTok c = RBRACK ->
    Entries X es c ns tk -> Nud X (o :: es ++ [c]) nx (NArray (tPos o) (filter isGroupEntry ns)) tk
| N_map : forall o c es nx ns tk, tTok o = LBRACE -> tTok c = RBRACE ->
    Entries X es c ns tk -> Nud X (o :: es ++ [c]) nx (NMap (tPos o) ILLEGAL ns) tk
| N_optional : forall o e nx n tk, tTok o = OPTIONAL -> Entry X e nx n tk ->
    Nud X (o :: e) nx (NOptional (tPos o) OPTIONAL n) tk
| N_unwrap : forall o e nx n tk, tTok o = UNWRAP -> Entry X e nx n tk ->
    Nud X (o :: e) nx (NUnwrap (tPos o) UNWRAP n) tk
| N_enum : forall o e nx n tk, tTok o = AMPERSAND -> Entry X e nx n tk ->
    Nud X (o :: e) nx (NEnumeration (tPos o) AMPERSAND n) tk
| N_star : forall o t e nx n up tk, tTok o = ZERO_OR_MORE -> Upper t up -> Entry X (t :: e) nx n tk ->
    Nud X (o :: t :: e) nx (NNMOccurrence (tPos o) ZERO_OR_MORE (Some (mkUint (tPos o) UINT 0)) up n) tk
| N_plus : forall o t e nx n up tk, tTok o = ONE_OR_MORE -> Upper t up -> Entry X (t :: e) nx n tk ->
    Nud X (o :: t :: e) nx (NNMOccurrence (tPos o) ONE_OR_MORE (Some (mkUint (tPos o) UINT 1)) up n) tk
| N_tag : forall o num nx major number, tTok o = HASH -> tTok nx <> LPAREN ->
    TagNum num (tTok nx) major number ->
    Nud X (o :: num) nx (NTag (tPos o) HASH major number NNil) []
| N_tagged : forall o num lp e nx nx' close major number n tk,
    tTok o = HASH -> tTok lp = LPAREN -> TagNum num LPAREN major number ->
    nx' = nextOf close nx -> Entry X e nx' n tk ->
    (close = [nx'] /\ tTok nx' = RPAREN) \/ (close = [] /\ tTok nx' <> RPAREN) ->
    Nud X (o :: num ++ lp :: e ++ close) nx (NTag (tPos o) HASH major number n) tk

with Tail (X : Ext) : tokInfo -> node -> list tokInfo -> tokInfo -> node -> list task -> Prop :=
| T_end : forall lst l nx, over (tTok lst) (tTok nx) -> Tail X lst l [] nx l []
| T_comma : forall lst l c nx, tTok lst <> COMMA -> tTok c = COMMA -> Tail X lst l [c] nx l []
| T_infix : forall lst l op t e nx v m tk tk', tTok lst <> COMMA ->
    Entry X (t :: e) nx v tk -> Infix op l t v m tk' ->
    Tail X lst l (op :: t :: e) nx m (tk ++ tk')
| T_member : forall lst l op t e nx i v tk, tTok lst <> COMMA ->
    tTok op = COLON \/ tTok op = ARROW_MAP -> Key op l i ->
    Entry X (t :: e) nx v tk -> ~ trailing (lastOf e t) nx ->
    Tail X lst l (op :: t :: e) nx (NEntry (tPos op) i v None) tk
| T_memberComment : forall lst l op t e c tl nx i v m tk tk', tTok lst <> COMMA ->
    tTok op = COLON \/ tTok op = ARROW_MAP -> Key op l i ->
    Entry X (t :: e) c v tk -> trailing (lastOf e t) c ->
    Tail X c (NEntry (tPos op) i v (Some (commentOf c))) tl nx m tk' ->
    Tail X lst l (op :: t :: e ++ c :: tl) nx m (tk ++ tk')
| T_noBound : forall lst l op tl nx m tk, tTok lst <> COMMA ->
    tTok op = INCLUSIVE_BOUND \/ tTok op = EXCLUSIVE_BOUND -> isBound l = false ->
    Tail X op (NRange zeroPos ILLEGAL NNil NNil) tl nx m tk ->
    Tail X lst l (op :: tl) nx m tk

with Entries (X : Ext) : list tokInfo -> tokInfo -> list node -> list task -> Prop :=
| Es_nil : forall c, Entries X [] c [] []
| Es_cons : forall e es c n ns tk tk', Entry X e (nextOf es c) n tk -> Entries X es c ns tk' ->
    Entries X (e ++ es) c (n :: ns) (tk ++ tk').

Scheme Entry_mind := Minimality for Entry Sort Prop
  with Nud_mind := Minimality for Nud Sort Prop
  with Tail_mind := Minimality for Tail Sort Prop
  with Entries_mind := Minimality for Entries Sort Prop.
Combined Scheme grammar_ind from Entry_mind, Nud_mind, Tail_mind, Entries_mind.

(** A list of comments as a node. *)
Definition commentNode (cms : list tokInfo) : node :=
  match cms with
  | [c] => NComment (commentOf c)
  | _ => NCommentGroup (map commentOf cms)
  end.

Definition assignTok (t : token) : Prop :=
  t = ASSIGN \/ t = TYPE_CHOICE_ASSIGN \/ t = GROUP_CHOICE_ASSIGN.

(** What a rule defines: only [=] rules define a name. *)
Definition defOf (a : token) (w : bytes) (v : node) : environment :=
  if teq a ASSIGN then [(w, v)] else [].

(** [File X ts eof rules tk defs]: the tokens [ts] up to EOF are a file with the
    given rules, deferred checks and definitions. After a rule with a comment on
    its last line one further token [sw] is swallowed. *)
Inductive File (X : Ext) : list tokInfo -> tokInfo -> list node -> list task -> environment -> Prop :=
| F_nil : forall eof, File X [] eof [] [] []
| F_comments : forall c cms ts eof rules tk defs,
    Forall commentTok (c :: cms) -> tTok (nextOf ts eof) <> COMMENT ->
    File X ts eof rules tk defs ->
    File X ((c :: cms) ++ ts) eof (commentNode (c :: cms) :: rules) tk defs
| F_rule : forall p w a t e ts eof v rules tk tk' defs, assignTok (tTok a) ->
    Entry X (t :: e) (nextOf ts eof) v tk -> ~ trailing (lastOf e t) (nextOf ts eof) ->
    File X ts eof rules tk' defs ->
    File X (mkTok IDENT p w :: a :: (t :: e) ++ ts) eof
         (NRule zeroPos (mkIdent p w) v None :: rules) (tk ++ tk') (defOf (tTok a) w v ++ defs)
| F_ruleComment : forall p w a t e c sw ts eof v rules tk tk' defs, assignTok (tTok a) ->
    Entry X (t :: e) c v tk -> trailing (lastOf e t) c ->
    length sw = 1%nat \/ (sw = [] /\ ts = []) ->
    File X ts eof rules tk' defs ->
    File X (mkTok IDENT p w :: a :: (t :: e) ++ c :: sw ++ ts) eof
         (NRule zeroPos (mkIdent p w) v (Some (commentOf c)) :: rules) (tk ++ tk')
         (defOf (tTok a) w v ++ defs).
