(** Abstract CDDL documents, how they are written, and the syntax tree each of
    them should get. This is the specification for property C16. It does not
    refer to the lexer or parser functions; taken from the model are the tokens
    and their spelling, the syntax tree type and the reader for floats (part of
    [Ext]).

    The documents of the fragment use everything the parser accepts and keeps,
    except where it is known to mistreat its input: comments on the last line of
    a rule (C29), explicit upper bounds of occurrences, items of groups and
    arrays that it drops, range bounds given by names. *)
From Coq Require Import String.
From Verif Require Import Base Utf8 Token Ext StrconvSpec LexSpec LexSpec2 Lexer Ast ParseSpec.
Open Scope string_scope.
Open Scope list_scope.
Open Scope Z_scope.

(** ** Documents *)

Inductive atom : Type :=
| AName (w : bytes)                 (* reference to a rule, or to a socket *)
| AType (t : token)                 (* int, tstr, ... *)
| ABool (b : bool)                  (* true, false *)
| AInt (w : bytes) (v : Z)          (* numeral [w] of value [v] *)
| AFloat (w : bytes) (b : Z)        (* numeral [w] with the float64 bits [b] *)
| AText (w : bytes).                (* "w" *)

(** After '#'. *)
Inductive tagno : Type :=
| TgNone                                        (* # *)
| TgMajor (w : bytes) (v : Z)                   (* #6 *)
| TgNumber (a : bytes) (va : Z) (b : bytes) (vb : Z).  (* #6.32 *)

Inductive bracket : Type := BGroup | BArray | BMap.

Inductive prefix : Type := PreOpt | PreUnwrap | PreEnum | PreStar | PrePlus.

Inductive oper : Type :=
| OChoice (group : bool)      (* / and // *)
| OCompare (t : token)        (* .lt .le .gt .ge .eq .ne *)
| OSize | ORegexp | OBits
| OTimes (plus : bool)        (* * and + after a lower bound *)
| ORange (excl : bool).       (* .. and ... *)

Inductive keyName : Type :=
| KName (w : bytes)
| KNum (w : bytes) (v : Z).

(** Types and group entries. A member may have a comment on its last line;
    [ECons lead e comma r] is an element with comments on lines of their own
    before it and perhaps a comma after it. *)
Inductive expr : Type :=
| XAtom (a : atom)
| XTag (g : tagno)
| XTagged (g : tagno) (e : expr)
| XBracket (b : bracket) (es : elems)
| XPrefix (p : prefix) (e : expr)
| XInfix (l : expr) (o : oper) (r : expr)
| XMember (k : keyName) (arrow : bool) (v : expr) (tc : option bytes)
with elems : Type :=
| ENil
| ECons (lead : list bytes) (e : expr) (comma : bool) (r : elems).

Scheme expr_mind := Induction for expr Sort Prop
  with elems_mind := Induction for elems Sort Prop.
Combined Scheme expr_elems_ind from expr_mind, elems_mind.

Record rule : Type := mkDRule { rName : bytes; rAssign : token; rBody : expr }.

(** Rules with the comments that stand before them, and final comments. *)
Record doc : Type := mkDoc { dRules : list (list bytes * rule); dFinal : list bytes }.

(** ** How documents are written *)

(** Where a lexeme stands relative to the one before it: anywhere, on another
    line, or on the same line. *)
Inductive place : Type := Any | Fresh | Same.

(** A lexeme: kind, text, literal. *)
Record lexi : Type := mkLx { xTok : token; xText : bytes; xLit : bytes; xAt : place }.

(** Keywords and punctuation. *)
Definition lx1 (t : token) : lexi := mkLx t (tokenName t) (tokenName t) Any.

Definition commentLx (a : place) (w : bytes) : lexi := mkLx COMMENT (59 :: w) w a.

Definition atomLx (a : atom) : lexi :=
  match a with
  | AName w => mkLx IDENT w w Any
  | AType t => lx1 t
  | ABool b => lx1 (if b then TRUE else FALSE)
  | AInt w _ => mkLx INT w w Any
  | AFloat w _ => mkLx FLOAT w w Any
  | AText w => mkLx TEXT_LITERAL (34 :: w ++ [34]) w Any
  end.

Definition tagLx (g : tagno) : list lexi :=
  match g with
  | TgNone => []
  | TgMajor w _ => [mkLx INT w w Any]
  | TgNumber a _ b _ => [mkLx FLOAT (a ++ 46 :: b) (a ++ 46 :: b) Any]
  end.

Definition opening (b : bracket) : token :=
  match b with BGroup => LPAREN | BArray => LBRACK | BMap => LBRACE end.
Definition closing (b : bracket) : token :=
  match b with BGroup => RPAREN | BArray => RBRACK | BMap => RBRACE end.

Definition preTok (p : prefix) : token :=
  match p with
  | PreOpt => OPTIONAL | PreUnwrap => UNWRAP | PreEnum => AMPERSAND
  | PreStar => ZERO_OR_MORE | PrePlus => ONE_OR_MORE
  end.

Definition opTok (o : oper) : token :=
  match o with
  | OChoice b => if b then GROUP_CHOICE else TYPE_CHOICE
  | OCompare t => t
  | OSize => SIZE | ORegexp => REGEXP | OBits => BITS
  | OTimes b => if b then ONE_OR_MORE else ZERO_OR_MORE
  | ORange b => if b then EXCLUSIVE_BOUND else INCLUSIVE_BOUND
  end.

Definition keyLx (k : keyName) : lexi :=
  match k with KName w => mkLx IDENT w w Any | KNum w _ => mkLx INT w w Any end.

Definition commaLx (c : bool) : list lexi := if c then [lx1 COMMA] else [].

(** Comments before an element or a rule: the first starts a line, except at the
    very beginning. *)
Definition leadLx (first : bool) (lead : list bytes) : list lexi :=
  match lead with
  | [] => []
  | c :: r => commentLx (if first then Any else Fresh) c :: map (commentLx Any) r
  end.

(** [show e comma]: the comma of an element goes before the comment on its line. *)
Fixpoint show (e : expr) (comma : bool) : list lexi :=
  match e with
  | XAtom a => atomLx a :: commaLx comma
  | XTag g => lx1 HASH :: tagLx g ++ commaLx comma
  | XTagged g e => lx1 HASH :: tagLx g ++ lx1 LPAREN :: show e false ++ lx1 RPAREN :: commaLx comma
  | XBracket b es => lx1 (opening b) :: showElems true es ++ lx1 (closing b) :: commaLx comma
  | XPrefix p e => lx1 (preTok p) :: show e comma
  | XInfix l o r => show l false ++ lx1 (opTok o) :: show r comma
  | XMember k arrow v tc =>
    keyLx k :: lx1 (if arrow then ARROW_MAP else COLON) :: show v comma ++
    match tc with None => [] | Some c => [commentLx Same c] end
  end
with showElems (first : bool) (es : elems) : list lexi :=
  match es with
  | ENil => []
  | ECons lead e comma r => leadLx first lead ++ show e comma ++ showElems false r
  end.

Definition showRule (r : rule) : list lexi :=
  mkLx IDENT (rName r) (rName r) Any :: lx1 (rAssign r) :: show (rBody r) false.

Fixpoint showRules (first : bool) (rs : list (list bytes * rule)) (final : list bytes) : list lexi :=
  match rs with
  | [] => leadLx first final
  | (lead, r) :: rest => leadLx first lead ++ showRule r ++ showRules false rest final
  end.

Definition showDoc (d : doc) : list lexi := showRules true (dRules d) (dFinal d).

(** ** The syntax tree of a document, without positions *)

Definition z := zeroPos.
Definition zr := mkRange zeroPos zeroPos.

Definition treeType (t : token) : node :=
  match t with
  | BOOL => NBooleanType z t
  | TSTR | TEXT => NTstrType z t
  | FLOAT | FLOAT16 | FLOAT32 | FLOAT64 => NFloatType z t 0
  | UINT => NUintType zr t
  | INT => NIntegerType z t
  | NINT => NNegativeIntegerType z t
  | BSTR => NBstrType z t
  | BYTES => NBytesType z t
  | _ => NNullType z t
  end.

Definition treeAtom (a : atom) : node :=
  match a with
  | AName w => NIdentifier (mkIdent z w)
  | AType t => treeType t
  | ABool b => NBooleanLiteral zr b
  | AInt _ v => NIntegerLiteral z INT v
  | AFloat _ b => NFloatLiteral zr FLOAT b
  | AText w => NTextLiteral z TEXT_LITERAL w
  end.

Definition treeTag (g : tagno) (item : node) : node :=
  match g with
  | TgNone => NTag z HASH None None item
  | TgMajor _ v => NTag z HASH (Some (mkUint z ILLEGAL v)) None item
  | TgNumber _ va _ vb => NTag z HASH (Some (mkUint z FLOAT va)) (Some (mkUint z FLOAT vb)) item
  end.

Definition treeKey (k : keyName) : ident :=
  match k with KName w => mkIdent z w | KNum _ v => mkIdent z (fmtD v) end.

(** The tree of [l] operator [r] from those of [l] and [r]. The tree of a
    comparison does not keep its left operand. *)
Definition treeInfix (o : oper) (l r : node) : node :=
  match o with
  | OChoice _ => NTypeChoice z (opTok o) l r
  | OCompare t => NComparator z t (tokenName t) (NTypedNil KIntegerType) r
  | OSize => NSizeOp z SIZE r l
  | ORegexp => NRegexp z REGEXP (match l with NTstrType p t => Some (p, t) | _ => None end) r
  | OBits => NBits z BITS l r
  | OTimes _ => NNMOccurrence z (opTok o)
      (match l with NIntegerLiteral _ _ v => Some (mkUint z UINT v) | _ => None end) None r
  | ORange _ => NRange z (opTok o) l r
  end.

Definition treePrefix (p : prefix) (n : node) : node :=
  match p with
  | PreOpt => NOptional z OPTIONAL n
  | PreUnwrap => NUnwrap z UNWRAP n
  | PreEnum => NEnumeration z AMPERSAND n
  | PreStar => NNMOccurrence z ZERO_OR_MORE (Some (mkUint z UINT 0)) None n
  | PrePlus => NNMOccurrence z ONE_OR_MORE (Some (mkUint z UINT 1)) None n
  end.

Definition treeBracket (b : bracket) (ns : list node) : node :=
  match b with
  | BGroup => NGroup z ns
  | BArray => NArray z ns
  | BMap => NMap z ILLEGAL ns
  end.

Definition treeComment (w : bytes) : comment := mkComment z w.

Fixpoint tree (e : expr) : node :=
  match e with
  | XAtom a => treeAtom a
  | XTag g => treeTag g NNil
  | XTagged g e => treeTag g (tree e)
  | XBracket b es => treeBracket b (trees es)
  | XPrefix p e => treePrefix p (tree e)
  | XInfix l o r => treeInfix o (tree l) (tree r)
  | XMember k _ v tc => NEntry z (treeKey k) (tree v) (option_map treeComment tc)
  end
with trees (es : elems) : list node :=
  match es with
  | ENil => []
  | ECons _ e _ r => tree e :: trees r
  end.

Definition treeComments (l : list bytes) : list node :=
  match l with
  | [] => []
  | [c] => [NComment (treeComment c)]
  | _ => [NCommentGroup (map treeComment l)]
  end.

Fixpoint treeRules (rs : list (list bytes * rule)) (final : list bytes) : list node :=
  match rs with
  | [] => treeComments final
  | (lead, r) :: rest =>
    treeComments lead ++ NRule z (mkIdent z (rName r)) (tree (rBody r)) None :: treeRules rest final
  end.

Definition docTree (d : doc) : node := NCDDL z (treeRules (dRules d) (dFinal d)).

(** Names that are referred to. Sockets and plugs start with '$' (36). *)
Definition nameRef (w : bytes) : list bytes := if hd 0 w =? 36 then [] else [w].

Definition keyRef (k : keyName) (arrow : bool) : list bytes :=
  match k with KName w => if arrow then nameRef w else [] | KNum _ _ => [] end.

Fixpoint refs (e : expr) : list bytes :=
  match e with
  | XAtom (AName w) => nameRef w
  | XAtom _ | XTag _ => []
  | XTagged _ e => refs e
  | XBracket _ es => refsElems es
  | XPrefix _ e => refs e
  | XInfix l _ r => refs l ++ refs r
  | XMember k arrow v _ => keyRef k arrow ++ refs v
  end
with refsElems (es : elems) : list bytes :=
  match es with
  | ENil => []
  | ECons _ e _ r => refs e ++ refsElems r
  end.

Definition docRefs (d : doc) : list bytes := flat_map (fun r => refs (rBody (snd r))) (dRules d).

(** What is defined; [/=] and [//=] define nothing. *)
Definition docDefs (d : doc) : list (bytes * node) :=
  flat_map (fun r => if teq (rAssign (snd r)) ASSIGN then [(rName (snd r), tree (rBody (snd r)))] else []) (dRules d).

(** ** Which documents belong to the fragment *)

Definition typeToks : list token :=
  [BOOL; TSTR; TEXT; FLOAT; FLOAT16; FLOAT32; FLOAT64; UINT; INT; NINT; BSTR; BYTES; NULL; NIL].

Definition wfName (w : bytes) : Prop := lexeme IDENT w w.

Definition wfInt (w : bytes) (v : Z) : Prop := lexeme INT w w /\ Numeral w v.

Definition wfAtom (X : Ext) (a : atom) : Prop :=
  match a with
  | AName w => wfName w
  | AType t => In t typeToks
  | ABool _ => True
  | AInt w v => wfInt w v /\ v < 2 ^ 63
  | AFloat w b => lexeme FLOAT w w /\ w <> str "float" /\ xParseFloat X w = Some b
  | AText w => lexeme TEXT_LITERAL (34 :: w ++ [34]) w
  end.

Definition wfTag (g : tagno) : Prop :=
  match g with
  | TgNone => True
  | TgMajor w v => wfInt w v /\ v < 2 ^ 64
  | TgNumber a va b vb => Forall digit a /\ Forall digit b /\
      Numeral a va /\ Numeral b vb /\ va < 2 ^ 64 /\ vb < 2 ^ 64
  end.

Definition wfKey (k : keyName) : Prop :=
  match k with KName w => wfName w | KNum w v => wfInt w v /\ v < 2 ^ 63 end.

Definition wfComment (w : bytes) : Prop := decodable w /\ ~ In 10 w.

(** What can stand to the left of an operator. *)
Definition primary (e : expr) : bool :=
  match e with XAtom _ | XTag _ | XTagged _ _ | XBracket _ _ => true | _ => false end.

(** The member at the right end of [e], if any: its comment. *)
Fixpoint spine (e : expr) : option (option bytes) :=
  match e with
  | XAtom _ | XTag _ | XTagged _ _ | XBracket _ _ => None
  | XPrefix _ e => spine e
  | XInfix _ _ r => spine r
  | XMember _ _ _ tc => Some tc
  end.

(** The text of [e] ends with a tag without operand. *)
Fixpoint endsTag (e : expr) : bool :=
  match e with
  | XTag _ => true
  | XAtom _ | XTagged _ _ | XBracket _ _ => false
  | XPrefix _ e => endsTag e
  | XInfix _ _ r => endsTag r
  | XMember _ _ v None => endsTag v
  | XMember _ _ _ (Some _) => false
  end.

(** [e] starts with an integer numeral. *)
Fixpoint leadsInt (e : expr) : bool :=
  match e with
  | XAtom (AInt _ _) => true
  | XInfix l _ _ => leadsInt l
  | XMember (KNum _ _) _ _ _ => true
  | _ => false
  end.

(** The text of the element ends with its comma. *)
Definition closed (e : expr) (comma : bool) : bool :=
  comma && match spine e with Some (Some _) => false | _ => true end.

(** [mayFollow e comma k]: a token of kind [k] after the element does not change
    how it reads: it is no operator, unless the element is closed by a comma; and
    it is no number and no parenthesis if the element ends with a bare tag. *)
Definition mayFollow (e : expr) (comma : bool) (k : token) : Prop :=
  (closed e comma = false -> infixTok k = false) /\
  (comma = false -> endsTag e = true -> ~ In k [LPAREN; INT; FLOAT]).

(** The kind of the first lexeme; [d] if there is none. *)
Definition firstTok (l : list lexi) (d : token) : token :=
  match l with [] => d | x :: _ => xTok x end.

(** The operands an operator takes. *)
Definition wfOper (o : oper) (l r : expr) : Prop :=
  match o with
  | OChoice _ | OBits => True
  | OCompare t => In t [LT; LE; GT; GE; EQ; NE] /\
      exists k, l = XAtom (AType k) /\ In k [UINT; INT; FLOAT; FLOAT16; FLOAT32; FLOAT64]
  | OSize => exists k, l = XAtom (AType k) /\ In k [BSTR; UINT; TSTR; TEXT]
  | ORegexp => (exists k, l = XAtom (AType k) /\ In k [TSTR; TEXT]) /\
      In (firstTok (show r false) EOF) [TEXT_LITERAL; IDENT]
  | OTimes _ => (exists w v, l = XAtom (AInt w v)) /\ leadsInt r = false
  | ORange _ => (exists w v w' v', l = XAtom (AInt w v) /\ r = XAtom (AInt w' v')) \/
      (exists w v w' v', l = XAtom (AFloat w v) /\ r = XAtom (AFloat w' v'))
  end.

Fixpoint wf (X : Ext) (e : expr) : Prop :=
  match e with
  | XAtom a => wfAtom X a
  | XTag g => wfTag g
  | XTagged g e => wfTag g /\ wf X e
  | XBracket b es => wfElems X (match b with BMap => false | _ => true end) es
  | XPrefix p e => wf X e /\ (p = PreStar \/ p = PrePlus -> leadsInt e = false)
  | XInfix l o r => primary l = true /\ wf X l /\ wf X r /\ wfOper o l r
  | XMember k _ v tc => wfKey k /\ wf X v /\ spine v = None /\
      match tc with None => True | Some c => wfComment c end
  end
with wfElems (X : Ext) (group : bool) (es : elems) : Prop :=
  match es with
  | ENil => True
  | ECons lead e comma r => Forall wfComment lead /\ wf X e /\
      (group = true -> isGroupEntry (tree e) = true) /\
      mayFollow e comma (firstTok (showElems false r) RPAREN) /\ wfElems X group r
  end.

Definition wfRule (X : Ext) (r : rule) : Prop :=
  wfName (rName r) /\ assignTok (rAssign r) /\ wf X (rBody r) /\ (forall c, spine (rBody r) <> Some (Some c)).

Definition wfDoc (X : Ext) (d : doc) : Prop :=
  Forall (fun r => Forall wfComment (fst r) /\ wfRule X (snd r)) (dRules d) /\ Forall wfComment (dFinal d).

(** ** Removing positions from a tree *)

Definition stripI (i : ident) : ident := mkIdent z (iName i).
Definition stripU (u : uintLit) : uintLit := mkUint z (uTok u) (uVal u).
Definition stripC (c : comment) : comment := mkComment z (cText c).

Fixpoint strip (n : node) : node :=
  match n with
  | NNil => NNil
  | NTypedNil k => NTypedNil k
  | NIdentifier i => NIdentifier (stripI i)
  | NComment c => NComment (stripC c)
  | NCommentGroup l => NCommentGroup (map stripC l)
  | NBooleanType _ t => NBooleanType z t
  | NBooleanLiteral _ b => NBooleanLiteral zr b
  | NTstrType _ t => NTstrType z t
  | NTextLiteral _ t s => NTextLiteral z t s
  | NFloatType _ t b => NFloatType z t b
  | NFloatLiteral _ t b => NFloatLiteral zr t b
  | NUintType _ t => NUintType zr t
  | NUintLiteral u => NUintLiteral (stripU u)
  | NIntegerType _ t => NIntegerType z t
  | NNegativeIntegerType _ t => NNegativeIntegerType z t
  | NIntegerLiteral _ t v => NIntegerLiteral z t v
  | NBstrType _ t => NBstrType z t
  | NBytesType _ t => NBytesType z t
  | NNullType _ t => NNullType z t
  | NEntry _ i v c => NEntry z (stripI i) (strip v) (option_map stripC c)
  | NTypeChoice _ t a b => NTypeChoice z t (strip a) (strip b)
  | NGroupChoice _ t a b => NGroupChoice z t (strip a) (strip b)
  | NUnwrap _ t i => NUnwrap z t (strip i)
  | NTag _ t a b i => NTag z t (option_map stripU a) (option_map stripU b) (strip i)
  | NEnumeration _ t v => NEnumeration z t (strip v)
  | NOptional _ t i => NOptional z t (strip i)
  | NNMOccurrence _ t a b i => NNMOccurrence z t (option_map stripU a) (option_map stripU b) (strip i)
  | NSizeOp _ t a b => NSizeOp z t (strip a) (strip b)
  | NRegexp _ t b r => NRegexp z t (option_map (fun pk => (z, snd pk)) b) (strip r)
  | NBits _ t a b => NBits z t (strip a) (strip b)
  | NComparator _ t o a b => NComparator z t o (strip a) (strip b)
  | NRange _ t a b => NRange z t (strip a) (strip b)
  | NGroup _ l => NGroup z (map strip l)
  | NMap _ t l => NMap z t (map strip l)
  | NArray _ l => NArray z (map strip l)
  | NBadNode _ t b _ => NBadNode z t (strip b) z
  | NRule _ i v c => NRule z (stripI i) (strip v) (option_map stripC c)
  | NCDDL _ l => NCDDL z (map strip l)
  end.

(** ** Sources that write a document *)

(** A token where its lexeme says, after the token [p]. *)
Definition placed (p t : tokInfo) (a : place) : Prop :=
  match a with
  | Any => True
  | Fresh => pLine (tPos p) <> pLine (tPos t)
  | Same => pLine (tPos p) = pLine (tPos t)
  end.

(** [Laid p ts xs]: the tokens [ts] after [p] are the lexemes [xs]. *)
Inductive Laid : tokInfo -> list tokInfo -> list lexi -> Prop :=
| Laid_nil : forall p, Laid p [] []
| Laid_cons : forall p t ts x xs, tTok t = xTok x -> tLit t = xLit x -> placed p t (xAt x) -> Laid t ts xs ->
    Laid p (t :: ts) (x :: xs).

(** The items of a spaced text (LexSpec2.v) that are the lexemes [xs]. *)
Definition fits (it : bytes * token * bytes * bytes) (x : lexi) : Prop :=
  let '(g, tk, text, lit) := it in
  tk = xTok x /\ text = xText x /\ lit = xLit x /\
  match xAt x with Any => True | Fresh => In 10 g | Same => ~ In 10 g end.

(** [s] writes the lexemes [xs]: they are separated by blanks, and by newlines
    where needed. *)
Definition writes (s : bytes) (xs : list lexi) : Prop :=
  exists items, spaced s items /\ Forall2 fits items xs.

(** One way to write lexemes: one space between two lexemes, a newline where a
    line has to start and after comments. *)
Fixpoint printFrom (afterComment : bool) (xs : list lexi) : bytes :=
  match xs with
  | [] => [10]
  | x :: r =>
    (if afterComment then [10] else match xAt x with Fresh => [10] | _ => [32] end) ++
    xText x ++ printFrom (teq (xTok x) COMMENT) r
  end.

Definition printDoc (d : doc) : bytes := printFrom false (showDoc d).
