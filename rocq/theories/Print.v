(** ast/astutils/print.go *)
From Coq Require Import String.
From Verif Require Import Base Token Ast.
Open Scope string_scope.
Open Scope list_scope.
Open Scope Z_scope.

(** What [fmt]'s %T prints for each node type (the struct names of ast/*.go). *)
Definition kindName (k : kind) : bytes :=
  str match k with
  | KIdentifier => "*ast.Identifier" | KComment => "*ast.Comment" | KCommentGroup => "*ast.CommentGroup"
  | KBooleanType => "*ast.BooleanType" | KBooleanLiteral => "*ast.BooleanLiteral"
  | KTstrType => "*ast.TstrType" | KTextLiteral => "*ast.TextLiteral"
  | KFloatType => "*ast.FloatType" | KFloatLiteral => "*ast.FloatLiteral"
  | KUintType => "*ast.UintType" | KUintLiteral => "*ast.UintLiteral"
  | KIntegerType => "*ast.IntegerType" | KNegativeIntegerType => "*ast.NegativeIntegerType"
  | KIntegerLiteral => "*ast.IntegerLiteral" | KBstrType => "*ast.BstrType" | KBytesType => "*ast.BytesType"
  | KNullType => "*ast.NullType" | KEntry => "*ast.Entry" | KTypeChoice => "*ast.TypeChoice"
  | KGroupChoice => "*ast.GroupChoice" | KUnwrap => "*ast.Unwrap" | KTag => "*ast.Tag"
  | KEnumeration => "*ast.Enumeration" | KOptional => "*ast.Optional" | KNMOccurrence => "*ast.NMOccurrence"
  | KSizeOp => "*ast.SizeOperatorControl" | KRegexp => "*ast.Regexp" | KBits => "*ast.Bits"
  | KComparator => "*ast.ComparatorOpControl" | KRange => "*ast.Range" | KGroup => "*ast.Group"
  | KMap => "*ast.Map" | KArray => "*ast.Array" | KBadNode => "*ast.BadNode" | KRule => "*ast.Rule"
  | KCDDL => "*ast.CDDL"
  end.

(** [fmt.Sprintf("%T", n)] *)
Definition typeName (n : node) : bytes :=
  match typeOf n with Some k => kindName k | None => str "<nil>" end.

(** print.go:83-85, [formatPosition]. *)
Definition formatPosition (p : position) : bytes :=
  str "{ Column: " ++ fmtD (pColumn p) ++ str ", Line: " ++ fmtD (pLine p) ++ str " }".

(** print.go:87-89, [spaceLevel] with the tab of print.go:11. *)
Definition tabs (level : nat) : bytes := repeat 9 level.

(** '\n' *)
Definition nl : bytes := [10].

(** print.go:18-81, [format] and the [format...] methods, with the level in force
    inside the call (print.go:21, 42 make it one more than the caller's). A nil
    pointer of a type with its own method is dereferenced there. [fmtF] is fmt's
    %f, which is outside the model. *)
Fixpoint formatNode (fmtF : Z -> bytes) (level : nat) (n : node) : res bytes :=
  match n with
  | NTypedNil k =>
    match k with
    | KIdentifier | KTypeChoice | KIntegerLiteral | KFloatLiteral | KIntegerType | KFloatType | KEnumeration | KGroup => Panic
    | _ => Ok (kindName k)
    end
  | NIdentifier i => Ok (str "Ident ( Name: '" ++ iName i ++ str "' ) " ++ formatPosition (iPos i))    (* print.go:47-49 *)
  | NTypeChoice p _ a b =>                                                                             (* print.go:51-54 *)
    let pre := tabs level in
    x <- formatNode fmtF (S level) a;;
    y <- formatNode fmtF (S level) b;;
    Ok (str "TypeChoice " ++ formatPosition p ++ str " (" ++ nl ++ pre ++ str "First  : " ++ x ++ str ", " ++ nl
        ++ pre ++ str "Second : " ++ y ++ nl ++ str ")")
  | NIntegerLiteral p _ v => Ok (str "IntegerLiteral (Literal: '" ++ fmtD v ++ str "') " ++ formatPosition p) (* print.go:56-58 *)
  | NFloatLiteral r _ b => Ok (str "FloatLiteral ( Literal: '" ++ fmtF b ++ str "' ) " ++ formatPosition (rStart r)) (* print.go:60-62 *)
  | NIntegerType p t => Ok (str "IntegerType ( Token: '" ++ tokenString t ++ str "' ) " ++ formatPosition p)  (* print.go:64-66 *)
  | NFloatType p t _ => Ok (str "FloatType ( Token: '" ++ tokenString t ++ str "' ) " ++ formatPosition p)    (* print.go:68-70 *)
  | NEnumeration p _ v =>                                                                              (* print.go:72-75 *)
    let pre := tabs level in
    x <- formatNode fmtF (S level) v;;
    Ok (str "Enumeration " ++ formatPosition p ++ str " (" ++ nl ++ pre ++ str "Value: " ++ x ++ nl ++ pre ++ str ")")
  | NGroup p l =>                                                                                      (* print.go:77-81 *)
    let pre := tabs level in
    Ok (str "Group " ++ formatPosition p ++ str " (" ++ nl ++ pre ++ [9] ++ str "Entries: " ++ fmtD (zlen l) ++ nl ++ pre ++ str ")")
  | n => Ok (typeName n)
  end.

(** print.go:100-107, [Format] (and the text printed by [Print], print.go:91-98). *)
Definition format (fmtF : Z -> bytes) (n : node) : res bytes := formatNode fmtF 1 n.
