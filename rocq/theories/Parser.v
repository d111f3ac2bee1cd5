(** parser/parser.go *)
From Coq Require Import String.
From Verif Require Import Base Utf8 Token Strconv Ext Lexer Ast Env Diag.
Open Scope string_scope.
Open Scope list_scope.
Open Scope Z_scope.

(** The closures appended to [p.tasks] (parser.go:233,833,875,920), with the
    variables they capture. *)
Inductive task : Type :=
| TExists (name : bytes) (p : position)                        (* parser.go:233-238 *)
| TIdentBound (t : token) (left : ident) (to : node)           (* parser.go:833-846 *)
| TIntBound (name : bytes) (s e : position)                    (* parser.go:875-889 *)
| TFloatBound (name : bytes) (s e : position).                 (* parser.go:920-934 *)

(** parser/parser.go:32-75, [Parser]. The triples (currToken, pos, currliteral)
    and (peekToken, peekPos, peekLiteral) are [cur] and [pk]; the function
    tables are [nudFor] and [ledFor] below. *)
Record parser : Type := mkParser {
  lx : lexer;
  cur : tokInfo;
  pk : tokInfo;
  perrors : list diag;
  env : environment;
  tasks : list task
}.

Definition curr (p : parser) : token := tTok (cur p).
Definition pos (p : parser) : position := tPos (cur p).
Definition currLit (p : parser) : bytes := tLit (cur p).
Definition peekTok (p : parser) : token := tTok (pk p).
Definition peekPos (p : parser) : position := tPos (pk p).
Definition peekLit (p : parser) : bytes := tLit (pk p).

(** What a nud or led returns: a node, a diagnostic ([None] is nil), and the
    parser afterwards. *)
Definition pres : Type := res (node * option diag * parser).

(** parser/parser.go:963-968, [next]. *)
Definition pnext (X : Ext) (p : parser) : res parser :=
  '(t, l) <- scan X (lx p);;
  Ok (mkParser l (pk p) t (perrors p) (env p) (tasks p)).

Definition addTask (p : parser) (t : task) : parser :=
  mkParser (lx p) (cur p) (pk p) (perrors p) (env p) (tasks p ++ [t]).

(** [p.errorHandler] and the append at parser.go:159, 994-999. *)
Definition addDiag (p : parser) (d : diag) : parser :=
  mkParser (lx p) (cur p) (pk p) (perrors p ++ [d]) (env p) (tasks p).

Definition setEnv (p : parser) (e : environment) : parser :=
  mkParser (lx p) (cur p) (pk p) (perrors p) e (tasks p).

(** parser/parser.go:991-993, [p.error]. *)
Definition err (m : msg) (s e : position) : diag := mkDiag s e m.

(** parser/parser.go:944-953, [errorUnsupportedTypes]. *)
Definition errorUnsupportedTypes (ps : position) (op : bytes) (l : list token) : diag :=
  err (MUnsupportedTypes op l) ps ps.

(** parser/parser.go:955-957, [errorTokenExpected]. *)
Definition errorTokenExpected (ps : position) (t : token) : diag :=
  err (MExpectedAt t (pLine ps) (pColumn ps)) ps ps.

(** parser/parser.go:959-961, [errorUnexpectedPrefix]. *)
Definition errorUnexpectedPrefix (ps : position) (t : token) : diag :=
  err (MUnexpectedAt t (pLine ps) (pColumn ps)) ps ps.

(** parser/parser.go:649-651, [isSameLineTokens]. *)
Definition isSameLineTokens (a b : position) : bool := pLine a =? pLine b.

(** parser/parser.go:653-659, [wrapBadNode]; Token is left zero (ILLEGAL). *)
Definition wrapBadNode (n : node) : res node :=
  s <- node_start n;;
  e <- node_end n;;
  Ok (NBadNode s ILLEGAL n e).

(** parser/parser.go:109-116, [expectPeek]; the diagnostic it builds is dropped. *)
Definition expectPeek (X : Ext) (t : token) (p : parser) : res parser :=
  if teq (peekTok p) t then pnext X p else Ok p.

(** parser/parser.go:720-726, [parseInnerComment]. *)
Definition parseInnerComment (p : parser) : comment := mkComment (pos p) (currLit p).

(** parser/parser.go:709-712, the loop of [parseComment]. *)
Fixpoint commentLoop (X : Ext) (fuel : nat) (acc : list comment) (p : parser)
  : res (list comment * parser) :=
  if teq (peekTok p) COMMENT then
    match fuel with
    | O => NoFuel
    | S f => p1 <- pnext X p;; commentLoop X f (acc ++ [parseInnerComment p1]) p1
    end
  else Ok (acc, p).

(** parser/parser.go:705-718, [parseComment]. *)
Definition parseComment (X : Ext) (fuel : nat) (p : parser) : pres :=
  '(l, p1) <- commentLoop X fuel [parseInnerComment p] p;;
  match l with
  | [c] => Ok (NComment c, None, p1)
  | _ => Ok (NCommentGroup l, None, p1)
  end.

(** parser/parser.go:225-227, [parseIdentifier]. *)
Definition parseIdentifier (p : parser) : pres :=
  Ok (NIdentifier (mkIdent (pos p) (currLit p)), None, p).

(** parser/parser.go:229-242, [parseNamedIdentifier]; '$' is 36. *)
Definition parseNamedIdentifier (p : parser) : pres :=
  match currLit p with
  | [] => Panic                                       (* literal[0] out of range *)
  | c :: _ =>
    Ok (NIdentifier (mkIdent (pos p) (currLit p)), None,
        if c =? 36 then p else addTask p (TExists (currLit p) (pos p)))
  end.

(** parser/parser.go:250-264, [parseBooleanLiteral]. *)
Definition parseBooleanLiteral (p : parser) : pres :=
  if beq (currLit p) (str "true") then
    Ok (NBooleanLiteral (mkRange (pos p) (posTo (pos p) 3)) true, None, p)
  else if beq (currLit p) (str "false") then
    Ok (NBooleanLiteral (mkRange (pos p) (posTo (pos p) 4)) false, None, p)
  else Ok (NNil, Some (err (MUnexpectedLiteral (currLit p)) (pos p) (pos p)), p).

(** parser/parser.go:277-287, [parseFloatLiteral]. *)
Definition parseFloatLiteral (X : Ext) (p : parser) : pres :=
  match xParseFloat X (currLit p) with
  | None => Ok (NNil, Some (errorTokenExpected (pos p) FLOAT), p)
  | Some b =>
    Ok (NFloatLiteral (mkRange (pos p) (posTo (pos p) (zlen (currLit p) - 1))) (curr p) b, None, p)
  end.

(** parser/parser.go:270-275, [parseFloatType]. *)
Definition parseFloatType (X : Ext) (p : parser) : pres :=
  if isLiteral (curr p) (currLit p) then parseFloatLiteral X p
  else Ok (NFloatType (pos p) (curr p) 0, None, p).

(** parser/parser.go:298-311, [parseUintLiteral], returning [*ast.UintLiteral]. *)
Definition parseUintLiteral (p : parser) : option uintLit * option diag :=
  if isLiteral (curr p) (currLit p) then
    match parseUint (currLit p) with
    | inl _ => (None, Some (errorTokenExpected (pos p) UINT))
    | inr v => (Some (mkUint (pos p) (curr p) v), None)
    end
  else (None, Some (err MExpectedUintLiteral (pos p) (pos p))).

(** parser/parser.go:289-296, [parseUintType]; a nil [*ast.UintLiteral] becomes
    a typed nil. *)
Definition parseUintType (p : parser) : pres :=
  if isLiteral (curr p) (currLit p) then
    let '(u, d) := parseUintLiteral p in
    Ok (match u with Some v => NUintLiteral v | None => NTypedNil KUintLiteral end, d, p)
  else Ok (NUintType (mkRange (pos p) (posTo (pos p) 4)) (curr p), None, p).

(** parser/parser.go:606-619, [parseIntegerLiteral]; a nil [*ast.IntegerLiteral]
    is returned through an [ast.Node] by its caller. *)
Definition parseIntegerLiteral (p : parser) : pres :=
  if isLiteral (curr p) (currLit p) then
    match parseInt (currLit p) with
    | inl _ => Ok (NTypedNil KIntegerLiteral, Some (errorTokenExpected (pos p) INT), p)
    | inr v => Ok (NIntegerLiteral (pos p) (curr p) v, None, p)
    end
  else Ok (NTypedNil KIntegerLiteral, Some (err MExpectedIntegerLiteral (pos p) (pos p)), p).

(** parser/parser.go:313-318, [parseIntegerType]. *)
Definition parseIntegerType (p : parser) : pres :=
  if isLiteral (curr p) (currLit p) then parseIntegerLiteral p
  else Ok (NIntegerType (pos p) (curr p), None, p).

(** A recursive call of [parseEntry]. *)
Definition entryFn : Type := Z -> parser -> pres.

(** The frequent [p.parseEntry(p.currToken.Precedence())]. *)
Definition peCurr (pe : entryFn) (p : parser) : pres := pe (precedence (curr p)) p.

(** parser/parser.go:361-364, the trailing comment of an entry. *)
Definition entryTrailing (X : Ext) (p : parser) : res (option comment * parser) :=
  if teq (peekTok p) COMMENT && isSameLineTokens (pos p) (peekPos p) then
    p1 <- pnext X p;; Ok (Some (parseInnerComment p1), p1)
  else Ok (None, p).

(** parser/parser.go:336-367, [parseColon]. *)
Definition parseColon (X : Ext) (pe : entryFn) (left : node) (p : parser) : pres :=
  let id := match left with
            | NIdentifier i => Some i
            | NIntegerLiteral _ _ v => Some (mkIdent (pos p) (fmtD v))
            | _ => None
            end in
  match id with
  | None => Ok (NNil, Some (errorUnsupportedTypes (pos p) (currLit p) [IDENT; INT]), p)
  | Some i =>
    p1 <- pnext X p;;
    '(v, d, p2) <- peCurr pe p1;;
    match d with
    | Some _ => Ok (v, d, p2)
    | None =>
      '(tc, p3) <- entryTrailing X p2;;
      Ok (NEntry (pos p) i v tc, None, p3)
    end
  end.

(** parser/parser.go:369-371, [parseComma]. *)
Definition parseComma (left : node) (p : parser) : pres := Ok (left, None, p).

(** parser/parser.go:373-386, [parseTypeChoice], and parser.go:388-402,
    [parseGroupChoice], which has the same body and also builds [ast.TypeChoice]. *)
Definition parseTypeChoice (X : Ext) (pe : entryFn) (left : node) (p : parser) : pres :=
  p1 <- pnext X p;;
  '(sec, d, p2) <- peCurr pe p1;;
  match d with
  | Some _ => Ok (sec, d, p2)
  | None => Ok (NTypeChoice (pos p) (curr p) left sec, None, p2)
  end.

(** parser/parser.go:404-418, [parseUnwrap]. *)
Definition parseUnwrap (X : Ext) (pe : entryFn) (p : parser) : pres :=
  p1 <- pnext X p;;
  '(item, d, p2) <- peCurr pe p1;;
  match d with
  | Some _ => Ok (item, d, p2)
  | None => Ok (NUnwrap (pos p) (curr p) item, None, p2)
  end.

(** strings.Split(s, "."): '.' is 46. *)
Fixpoint splitDot (s : bytes) : list bytes :=
  match s with
  | [] => [[]]
  | c :: r =>
    if c =? 46 then [] :: splitDot r
    else match splitDot r with
         | h :: t => (c :: h) :: t
         | [] => [[c]]
         end
  end.

(** parser/parser.go:478-499, [parseFloatTag]: major and tag number. *)
Definition parseFloatTag (p : parser) : (uintLit * uintLit) + diag :=
  match splitDot (currLit p) with
  | [a; b] =>
    match parseUint a with
    | inl e => inr (err (MNumError e a) (pos p) (pos p))
    | inr va =>
      match parseUint b with
      | inl e => inr (err (MNumError e b) (pos p) (pos p))
      | inr vb => inl (mkUint (pos p) (curr p) va, mkUint (pos p) (curr p) vb)
      end
    end
  | _ => inr (err (MInvalidTag (currLit p)) (pos p) (pos p))
  end.

(** parser/parser.go:426-442, the head of a tag; [inr] is an early return. *)
Definition parseTagHead (X : Ext) (p : parser)
  : res ((option uintLit * option uintLit * parser) + (diag * parser)) :=
  match peekTok p with
  | INT =>
    p1 <- pnext X p;;
    match parseUint (currLit p1) with
    | inl _ => Ok (inr (err MTagMajor (pos p1) (pos p1), p1))
    | inr v => Ok (inl (Some (mkUint zeroPos ILLEGAL v), None, p1))
    end
  | FLOAT =>
    p1 <- pnext X p;;
    match parseFloatTag p1 with
    | inr d => Ok (inr (d, p1))
    | inl (a, b) => Ok (inl (Some a, Some b, p1))
    end
  | _ => Ok (inl (None, None, p))
  end.

(** parser/parser.go:420-454, [parseTag]. *)
Definition parseTag (X : Ext) (pe : entryFn) (p : parser) : pres :=
  h <- parseTagHead X p;;
  match h with
  | inr (d, p1) => Ok (NNil, Some d, p1)
  | inl (major, number, p1) =>
    if teq (peekTok p1) LPAREN then
      p2 <- pnext X p1;;
      p3 <- pnext X p2;;
      '(item, d, p4) <- peCurr pe p3;;
      match d with
      | Some _ => Ok (NTag (pos p) (curr p) major number item, d, p4)
      | None =>
        p5 <- expectPeek X RPAREN p4;;
        Ok (NTag (pos p) (curr p) major number item, None, p5)
      end
    else Ok (NTag (pos p) (curr p) major number NNil, None, p1)
  end.

(** parser/parser.go:456-476, [parseEnumeration]. *)
Definition parseEnumeration (X : Ext) (pe : entryFn) (p : parser) : pres :=
  p1 <- pnext X p;;
  '(v, d, p2) <- peCurr pe p1;;
  match d with
  | Some _ => Ok (NEnumeration (pos p) (curr p) (NBadNode zeroPos ILLEGAL v zeroPos), d, p2)
  | None => Ok (NEnumeration (pos p) (curr p) v, None, p2)
  end.

(** parser/parser.go:501-515, [parseOptional]. *)
Definition parseOptional (X : Ext) (pe : entryFn) (p : parser) : pres :=
  p1 <- pnext X p;;
  '(item, d, p2) <- peCurr pe p1;;
  match d with
  | Some _ => Ok (item, d, p2)
  | None => Ok (NOptional (pos p) (curr p) item, None, p2)
  end.

(** parser/parser.go:794-807, the upper bound of an occurrence: the bound, or an
    early return with a diagnostic. With an explicit bound the parser stays on
    the bound's own token. *)
Definition occUpper (X : Ext) (p : parser) : res ((option uintLit * parser) + (diag * parser)) :=
  if teq (peekTok p) INT && isLiteral (peekTok p) (peekLit p) then
    p1 <- pnext X p;;
    '(n, d, p2) <- parseUintType p1;;
    match d with
    | Some d' => Ok (inr (d', p2))
    | None => Ok (inl (match n with NUintLiteral u => Some u | _ => None end, p2))
    end
  else
    p1 <- pnext X p;; Ok (inl (None, p1)).

(** parser/parser.go:778-792, the lower bound: the literal, or an early return. *)
Definition occLower (left : node) (p : parser) : res (uintLit + diag) :=
  match left with
  | NUintLiteral u => Ok (inl u)
  | NIntegerLiteral ps _ v =>
    if v <? 0 then
      s <- node_start left;; e <- node_end left;;
      Ok (inr (err (MOccLower v (curr p)) s e))
    else Ok (inl (mkUint ps UINT v))
  | _ =>
    s <- node_start left;; e <- node_end left;;
    Ok (inr (err (MOccType (curr p)) s e))
  end.

(** parser/parser.go:771-817, [parseOccurrence]. *)
Definition parseOccurrence (X : Ext) (pe : entryFn) (left : node) (p : parser) : pres :=
  lo <- occLower left p;;
  match lo with
  | inr d => Ok (NNil, Some d, p)
  | inl leftU =>
    up <- occUpper X p;;
    match up with
    | inr (d, p1) => Ok (NNMOccurrence (pos p) (curr p) None None NNil, Some d, p1)
    | inl (upper, p1) =>
      '(item, d, p2) <- peCurr pe p1;;
      match d with
      | Some _ =>
        Ok (NBadNode zeroPos (curr p2)
              (NNMOccurrence (pos p) (curr p) (Some leftU) upper NNil) zeroPos, d, p2)
      | None => Ok (NNMOccurrence (pos p) (curr p) (Some leftU) upper item, None, p2)
      end
    end
  end.

(** parser/parser.go:517-526, [parseZMOccurrence], and 528-537,
    [parseOMOccurrence], which differ in the literal [n] (0 and 1). *)
Definition parsePrefixOccurrence (X : Ext) (pe : entryFn) (n : Z) (p : parser) : pres :=
  parseOccurrence X pe (NUintLiteral (mkUint (pos p) UINT n)) p.

(** parser/parser.go:539-561, [parseSizeOperator]. *)
Definition parseSizeOperator (X : Ext) (pe : entryFn) (left : node) (p : parser) : pres :=
  match typeOf left with
  | Some KBstrType | Some KUintType | Some KTstrType =>
    p1 <- pnext X p;;
    '(rhs, d, p2) <- peCurr pe p1;;
    match d with
    | Some _ => Ok (NSizeOp (pos p) (curr p) NNil left, d, p2)
    | None => Ok (NSizeOp (pos p) (curr p) rhs left, None, p2)
    end
  | _ =>
    Ok (NSizeOp (pos p) (curr p) NNil NNil,
        Some (errorUnsupportedTypes (pos p) (currLit p) [TSTR; BSTR; UINT]), p)
  end.

(** parser/parser.go:565-587, [parseRegexp]. When the left operand is not a
    [*ast.TstrType] the failed type assertion leaves [b] nil and [b.Pos] panics. *)
Definition parseRegexp (X : Ext) (pe : entryFn) (left : node) (p : parser) : pres :=
  match typeOf left with
  | Some KTstrType =>
    let base := match left with NTstrType ps t => Some (ps, t) | _ => None end in
    if negb (teq (peekTok p) TEXT_LITERAL) && negb (teq (peekTok p) IDENT) then
      Ok (NRegexp (pos p) (curr p) base NNil, Some (errorTokenExpected (pos p) TEXT_LITERAL), p)
    else
      p1 <- pnext X p;;
      '(re, d, p2) <- peCurr pe p1;;
      match d with
      | Some _ => Ok (NRegexp (pos p) (curr p) base NNil, d, p2)
      | None => Ok (NRegexp (pos p) (curr p) base re, None, p2)
      end
  | _ => Panic
  end.

(** parser/parser.go:589-604, [parseBits]. *)
Definition parseBits (X : Ext) (pe : entryFn) (left : node) (p : parser) : pres :=
  p1 <- pnext X p;;
  '(c, d, p2) <- peCurr pe p1;;
  match d with
  | Some _ => b <- wrapBadNode c;; Ok (NBits (pos p) (curr p) b NNil, d, p2)
  | None => Ok (NBits (pos p) (curr p) left c, None, p2)
  end.

(** parser/parser.go:728-755, [parseComparatorOp]. [leftI] is never assigned, so
    Left is always a nil [*ast.IntegerType]; the diagnostic built at 744 is dropped. *)
Definition parseComparatorOp (X : Ext) (pe : entryFn) (left : node) (p : parser) : pres :=
  match typeOf left with
  | Some KUintType | Some KIntegerType | Some KFloatType =>
    p1 <- pnext X p;;
    '(rhs, d, p2) <- peCurr pe p1;;
    match d with
    | Some _ => Ok (NBadNode zeroPos (curr p2) (NTypedNil KIntegerType) zeroPos, d, p2)
    | None => Ok (NComparator (pos p) (curr p) (currLit p) (NTypedNil KIntegerType) rhs, None, p2)
    end
  | _ => Ok (NNil, Some (errorUnsupportedTypes (pos p) (currLit p) [INT; FLOAT; UINT]), p)
  end.

(** parser/parser.go:819-848, [parseIdentBound]. *)
Definition parseIdentBound (X : Ext) (pe : entryFn) (left : ident) (p : parser) : pres :=
  p1 <- pnext X p;;
  '(to, d, p2) <- peCurr pe p1;;
  match d with
  | Some _ => Ok (NRange (pos p) (curr p) (NIdentifier left) NNil, d, p2)
  | None =>
    Ok (NRange (pos p) (curr p) (NIdentifier left) to, None,
        addTask p2 (TIdentBound (curr p) left to))
  end.

(** parser/parser.go:850-893, [parseIntBound], and 895-938, [parseFloatBound]:
    [isInt] selects which literal kind is the right one. The two Go functions
    differ only in the literal type, the messages and the task. *)
Definition parseLitBound (X : Ext) (pe : entryFn) (isInt : bool) (left : node) (p : parser) : pres :=
  p1 <- pnext X p;;
  '(to, d, p2) <- peCurr pe p1;;
  let b x := NRange (pos p) (curr p) left x in
  match d with
  | Some _ => Ok (b NNil, d, p2)
  | None =>
    match to with
    | NIntegerLiteral ps t v =>
      if isInt then Ok (b to, None, p2)
      else
        s <- node_start to;; e <- node_end to;;
        Ok (b (NBadNode s t to e), Some (err MIntForFloat s e), p2)
    | NFloatLiteral r t v =>
      if isInt then
        s <- node_start to;; e <- node_end to;;
        Ok (b (NBadNode s t to e), Some (err MFloatForInt s e), p2)
      else Ok (b to, None, p2)
    | NIdentifier i =>
      s <- node_start to;; e <- node_end to;;
      Ok (b to, None,
          addTask p2 (if isInt then TIntBound (iName i) s e else TFloatBound (iName i) s e))
    | _ => Ok (b NNil, None, p2)
    end
  end.

(** parser/parser.go:757-769, [parseBound]. *)
Definition parseBound (X : Ext) (pe : entryFn) (left : node) (p : parser) : pres :=
  match left with
  | NIntegerLiteral _ _ _ => parseLitBound X pe true left p
  | NFloatLiteral _ _ _ => parseLitBound X pe false left p
  | NIdentifier i => parseIdentBound X pe i p
  | _ => Ok (NRange zeroPos ILLEGAL NNil NNil, None, p)
  end.

(** The loops of [parseGroup] (parser.go:630-645), [parseMap] (666-675) and
    [parseArray] (684-700): entries until the token [stop]; [keep] says which
    nodes are appended. The diagnostic is [Some] when an entry failed. *)
Fixpoint bracketLoop (X : Ext) (pe : entryFn) (stop : token) (keep : node -> bool)
    (fuel : nat) (acc : list node) (p : parser) : res (list node * option diag * parser) :=
  if teq (curr p) stop then Ok (acc, None, p)
  else match fuel with
  | O => NoFuel
  | S f =>
    '(e, d, p1) <- peCurr pe p;;
    match d with
    | Some _ => Ok (acc, d, p1)
    | None =>
      p2 <- pnext X p1;;
      bracketLoop X pe stop keep f (if keep e then acc ++ [e] else acc) p2
    end
  end.

(** The test [rule != nil] of parser.go:671. *)
Definition notNil (n : node) : bool := match n with NNil => false | _ => true end.

(** parser/parser.go:625-647, [parseGroup]. *)
Definition parseGroup (X : Ext) (pe : entryFn) (fuel : nat) (p : parser) : pres :=
  p1 <- pnext X p;;
  '(l, d, p2) <- bracketLoop X pe RPAREN isGroupEntry fuel [] p1;;
  Ok (NGroup (pos p) l, d, p2).

(** parser/parser.go:661-677, [parseMap]. *)
Definition parseMap (X : Ext) (pe : entryFn) (fuel : nat) (p : parser) : pres :=
  p1 <- pnext X p;;
  '(l, d, p2) <- bracketLoop X pe RBRACE notNil fuel [] p1;;
  Ok (NMap (pos p) ILLEGAL l, d, p2).

(** parser/parser.go:679-703, [parseArray]. *)
Definition parseArray (X : Ext) (pe : entryFn) (fuel : nat) (p : parser) : pres :=
  p1 <- pnext X p;;
  '(l, d, p2) <- bracketLoop X pe RBRACK isGroupEntry fuel [] p1;;
  Ok (NArray (pos p) l, d, p2).

(** The null denotations, in the order of parser.go:1002-1029; [NuIdentifier] is
    the substitute of parser.go:193-195. *)
Inductive nud : Type :=
| NuIdentifier | NuNamedIdentifier | NuBooleanType | NuBooleanLiteral | NuTstrType
| NuTextLiteral | NuFloatType | NuUintType | NuIntegerType | NuNegativeIntegerType
| NuBstrType | NuBytesType | NuNullType | NuMap | NuGroup | NuArray | NuComment
| NuOptional | NuZMOccurrence | NuOMOccurrence | NuUnwrap | NuTag | NuEnumeration.

(** parser/parser.go:1002-1029, the table [p.nuds]. *)
Definition nudFor (t : token) : option nud :=
  match t with
  | IDENT => Some NuNamedIdentifier
  | BOOL => Some NuBooleanType
  | FALSE | TRUE => Some NuBooleanLiteral
  | TSTR | TEXT => Some NuTstrType
  | TEXT_LITERAL => Some NuTextLiteral
  | FLOAT | FLOAT16 | FLOAT32 | FLOAT64 => Some NuFloatType
  | UINT => Some NuUintType
  | INT => Some NuIntegerType
  | NINT => Some NuNegativeIntegerType
  | BSTR => Some NuBstrType
  | BYTES => Some NuBytesType
  | NULL | NIL => Some NuNullType
  | LBRACE => Some NuMap
  | LPAREN => Some NuGroup
  | LBRACK => Some NuArray
  | COMMENT => Some NuComment
  | OPTIONAL => Some NuOptional
  | ZERO_OR_MORE => Some NuZMOccurrence
  | ONE_OR_MORE => Some NuOMOccurrence
  | UNWRAP => Some NuUnwrap
  | HASH => Some NuTag
  | AMPERSAND => Some NuEnumeration
  | _ => None
  end.

(** The call [nudFn()] of parser.go:203. Bodies not defined above:
    [parseBooleanType] 244-248, [parseTstrType] 266-268, [parseTextLiteral] 621-623,
    [parseNegativeIntegerType] 320-322, [parseBstrType] 323-325,
    [parseBytesType] 328-330, [parseNullType] 332-334. *)
Definition runNud (X : Ext) (pe : entryFn) (fuel : nat) (n : nud) (p : parser) : pres :=
  match n with
  | NuIdentifier => parseIdentifier p
  | NuNamedIdentifier => parseNamedIdentifier p
  | NuBooleanType => Ok (NBooleanType (pos p) (curr p), None, p)
  | NuBooleanLiteral => parseBooleanLiteral p
  | NuTstrType => Ok (NTstrType (pos p) (curr p), None, p)
  | NuTextLiteral => Ok (NTextLiteral (pos p) (curr p) (currLit p), None, p)
  | NuFloatType => parseFloatType X p
  | NuUintType => parseUintType p
  | NuIntegerType => parseIntegerType p
  | NuNegativeIntegerType => Ok (NNegativeIntegerType (pos p) (curr p), None, p)
  | NuBstrType => Ok (NBstrType (pos p) (curr p), None, p)
  | NuBytesType => Ok (NBytesType (pos p) (curr p), None, p)
  | NuNullType => Ok (NNullType (pos p) (curr p), None, p)
  | NuMap => parseMap X pe fuel p
  | NuGroup => parseGroup X pe fuel p
  | NuArray => parseArray X pe fuel p
  | NuComment => parseComment X fuel p
  | NuOptional => parseOptional X pe p
  | NuZMOccurrence => parsePrefixOccurrence X pe 0 p
  | NuOMOccurrence => parsePrefixOccurrence X pe 1 p
  | NuUnwrap => parseUnwrap X pe p
  | NuTag => parseTag X pe p
  | NuEnumeration => parseEnumeration X pe p
  end.

(** The left denotations. *)
Inductive led : Type :=
| LeColon | LeChoice | LeComparator | LeSize | LeRegexp | LeBits | LeBound | LeOccurrence
| LeComma.

(** parser/parser.go:1031-1049, the table [p.leds]. *)
Definition ledFor (t : token) : option led :=
  match t with
  | COLON | ARROW_MAP => Some LeColon
  | TYPE_CHOICE | GROUP_CHOICE => Some LeChoice
  | LT | LE | GT | GE | EQ | NE => Some LeComparator
  | SIZE => Some LeSize
  | REGEXP => Some LeRegexp
  | BITS => Some LeBits
  | INCLUSIVE_BOUND | EXCLUSIVE_BOUND => Some LeBound
  | ZERO_OR_MORE | ONE_OR_MORE => Some LeOccurrence
  | COMMA => Some LeComma
  | _ => None
  end.

(** The call [ledFn(exp)] of parser.go:215. *)
Definition runLed (X : Ext) (pe : entryFn) (k : led) (left : node) (p : parser) : pres :=
  match k with
  | LeColon => parseColon X pe left p
  | LeChoice => parseTypeChoice X pe left p
  | LeComparator => parseComparatorOp X pe left p
  | LeSize => parseSizeOperator X pe left p
  | LeRegexp => parseRegexp X pe left p
  | LeBits => parseBits X pe left p
  | LeBound => parseBound X pe left p
  | LeOccurrence => parseOccurrence X pe left p
  | LeComma => parseComma left p
  end.

(** parser/parser.go:209-222, the loop of [parseEntry]. *)
Fixpoint ledLoop (X : Ext) (pe : entryFn) (fuel : nat) (prec : Z) (e : node) (p : parser) : pres :=
  if negb (teq (curr p) COMMA) && (prec <? precedence (peekTok p)) then
    match ledFor (peekTok p) with
    | None => Ok (e, None, p)
    | Some k =>
      match fuel with
      | O => NoFuel
      | S f =>
        p1 <- pnext X p;;
        '(e1, d, p2) <- runLed X pe k e p1;;
        match d with
        | Some _ => Ok (e1, d, p2)
        | None => ledLoop X pe f prec e1 p2
        end
      end
    end
  else Ok (e, None, p).

(** parser/parser.go:192-195, the choice of the null denotation. *)
Definition chooseNud (p : parser) : option nud :=
  if teq (curr p) IDENT && teq (peekTok p) COLON then Some NuIdentifier else nudFor (curr p).

(** parser/parser.go:188-191: a leading run of comments is discarded. *)
Definition skipComments (X : Ext) (fuel : nat) (p : parser) : res parser :=
  if teq (curr p) COMMENT then
    '(_, _, p1) <- parseComment X fuel p;; pnext X p1
  else Ok p.

(** parser/parser.go:185-223, [parseEntry]. *)
Fixpoint parseEntry (X : Ext) (fuel : nat) (prec : Z) (p : parser) : pres :=
  match fuel with
  | O => NoFuel
  | S f =>
    p1 <- skipComments X f p;;
    match chooseNud p1 with
    | None => Ok (NNil, Some (errorUnexpectedPrefix (pos p1) (curr p1)), p1)
    | Some n =>
      '(e, d, p2) <- runNud X (parseEntry X f) f n p1;;
      match d with
      | Some _ => Ok (e, d, p2)
      | None => ledLoop X (parseEntry X f) f prec e p2
      end
    end
  end.

(** parser/parser.go:173-177, the trailing comment of a rule: the token after the
    comment is consumed as well. *)
Definition ruleTrailing (X : Ext) (p : parser) : res (option comment * parser) :=
  if teq (peekTok p) COMMENT && isSameLineTokens (pos p) (peekPos p) then
    p1 <- pnext X p;;
    p2 <- pnext X p1;;
    Ok (Some (parseInnerComment p1), p2)
  else Ok (None, p).

(** parser/parser.go:152-161, the deferred registration of a rule. [val.Start()]
    is a method call on the node stored first. *)
Definition registerRule (name : ident) (entry : node) (p : parser) : res parser :=
  let '(e', dup) := add (env p) (iName name) entry in
  let p1 := setEnv p e' in
  if dup then
    s <- node_start (get (env p1) (iName name));;
    Ok (addDiag p1 (err (MExisting (iName name) (pLine s) (pColumn s)) (iPos name) (iPos name)))
  else Ok p1.

(** parser/parser.go:122-180, [parseRule]. The result node is [NNil] for a nil
    [ast.CDDLEntry]. *)
Definition parseRule (X : Ext) (fuel : nat) (p : parser) : pres :=
  match curr p with
  | COMMENT => parseComment X fuel p
  | IDENT =>
    let name := mkIdent (pos p) (currLit p) in
    p1 <- pnext X p;;
    match curr p1 with
    | ASSIGN =>
      p2 <- pnext X p1;;
      '(e, d, p3) <- parseEntry X fuel (precedence (curr p2)) p2;;
      match d with
      | Some _ => Ok (NRule zeroPos name NNil None, d, p3)
      | None =>
        '(tc, p4) <- ruleTrailing X p3;;
        p5 <- registerRule name e p4;;
        Ok (NRule zeroPos name e tc, None, p5)
      end
    | TYPE_CHOICE_ASSIGN | GROUP_CHOICE_ASSIGN =>
      p2 <- pnext X p1;;
      '(e, d, p3) <- parseEntry X fuel LOWEST p2;;
      match d with
      | Some _ => Ok (NRule zeroPos name NNil None, d, p3)
      | None =>
        '(tc, p4) <- ruleTrailing X p3;;
        Ok (NRule zeroPos name e tc, None, p4)
      end
    | _ => Ok (NNil, Some (err (MExpectedAssign (iName name)) (iPos name) (iPos name)), p1)
    end
  | _ => Ok (NNil, Some (errorTokenExpected (pos p) IDENT), p)
  end.

(** [p.errorHandler(err)] guarded by [err != nil], parser.go:89-91, 994-999. *)
Definition handle (p : parser) (d : option diag) : parser :=
  match d with Some x => addDiag p x | None => p end.

(** parser/parser.go:87-96, the rule loop of [ParseFile]. *)
Fixpoint fileLoop (X : Ext) (rfuel fuel : nat) (acc : list node) (p : parser)
  : res (list node * parser) :=
  if teq (curr p) EOF then Ok (acc, p)
  else match fuel with
  | O => NoFuel
  | S f =>
    '(e, d, p1) <- parseRule X rfuel p;;
    p2 <- pnext X (handle p1 d);;
    fileLoop X rfuel f (if notNil e then acc ++ [e] else acc) p2
  end.

(** Do the values have the same dynamic type (reflect.TypeOf equality)? *)
Definition sameType (a b : node) : bool :=
  match typeOf a, typeOf b with
  | Some k, Some k' => if kind_eq_dec k k' then true else false
  | None, None => true
  | _, _ => false
  end.

(** One deferred task, run against the final environment. *)
Definition runTask (e : environment) (t : task) : option diag :=
  match t with
  | TExists name ps =>                                   (* parser.go:234-237 *)
    if exists_ e name then None else Some (err (MNotExist name) ps ps)
  | TIdentBound tok lf to =>                           (* parser.go:834-845 *)
    match to with
    | NIdentifier i =>
      let vl := get e (iName lf) in
      let vr := get e (iName i) in
      if sameType vl vr then None
      else Some (err (MRangeTypes tok (iName lf) (iName i) vl vr) (iPos lf) (iPos i))
    | _ => None
    end
  | TIntBound name s e' =>                               (* parser.go:876-888 *)
    if exists_ e name then
      match typeOf (get e name) with
      | Some KIntegerLiteral => None
      | Some KFloatLiteral => Some (err MFloatForInt s e')
      | _ => Some (err MIntUpper s e')
      end
    else Some (err (MNotExist name) s e')
  | TFloatBound name s e' =>                             (* parser.go:921-933 *)
    if exists_ e name then
      match typeOf (get e name) with
      | Some KFloatLiteral => None
      | Some KIntegerLiteral => Some (err MIntForFloat s e')
      | _ => Some (err MFloatUpper s e')
      end
    else Some (err (MNotExist name) s e')
  end.

(** parser/parser.go:98-103, running the tasks. *)
Definition runTasks (p : parser) : parser :=
  fold_left (fun q t => handle q (runTask (env p) t)) (tasks p) p.

(** Result of [ParseFile]: [None] is a nil [*ast.CDDL]; the error list is nil
    when empty. *)
Definition fileResult : Type := option node * option (list diag).

(** parser/parser.go:78-107, [ParseFile]. *)
Definition parseFile (X : Ext) (fuel : nat) (p : parser) : res (fileResult * parser) :=
  match errors (lx p) with
  | _ :: _ => Ok ((None, None), p)
  | [] =>
    '(rules, p1) <- fileLoop X fuel fuel [] p;;
    let p2 := runTasks p1 in
    Ok ((Some (NCDDL zeroPos rules), collect (perrors p2)), p2)
  end.

(** The zero values of the token fields of a fresh [Parser]. *)
Definition zeroTok : tokInfo := mkTok ILLEGAL zeroPos [].

(** parser/parser.go:977-1054, [NewParser]; [e] is the environment given by
    [WithEnv] (parser.go:26-30) or a new one. *)
Definition newParser (X : Ext) (l : lexer) (e : environment) : res parser :=
  p1 <- pnext X (mkParser l zeroTok zeroTok [] e []);;
  pnext X p1.

(** Recursion fuel that suffices for a source (ParseSource.v). *)
Definition parseFuel (s : bytes) : nat := length s + 4.

(** The composition every caller uses (commands.go:120-122, repl.go, examples/parser):
    [NewParser(NewLexer(src), WithEnv(e)).ParseFile()]. *)
Definition parseSource (X : Ext) (fuel : nat) (s : bytes) (e : environment)
  : res (fileResult * parser) :=
  p <- newParser X (newLexer s) e;;
  parseFile X fuel p.

Definition parse (X : Ext) (s : bytes) : res (fileResult * parser) :=
  parseSource X (parseFuel s) s newEnvironment.
