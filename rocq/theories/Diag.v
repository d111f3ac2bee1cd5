(** parser/diagnostic.go and the diagnostics built in parser/parser.go *)
From Coq Require Import String.
From Verif Require Import Base Token Strconv Ast.
Open Scope string_scope.
Open Scope list_scope.
Open Scope Z_scope.

(** The messages of parser/parser.go, unformatted. *)
Inductive msg : Type :=
| MExpectedAt (t : token) (line col : Z)       (* parser.go:956 *)
| MUnexpectedAt (t : token) (line col : Z)     (* parser.go:960 *)
| MExpectedAssign (name : bytes)               (* parser.go:170 *)
| MExisting (name : bytes) (line col : Z)      (* parser.go:159 *)
| MUnexpectedLiteral (lit : bytes)             (* parser.go:263 *)
| MExpectedUintLiteral                         (* parser.go:310 *)
| MExpectedIntegerLiteral                      (* parser.go:618 *)
| MUnsupportedTypes (op : bytes) (l : list token)  (* parser.go:952 *)
| MTagMajor                                    (* parser.go:431 *)
| MInvalidTag (lit : bytes)                    (* parser.go:482 *)
| MNumError (e : numErr) (s : bytes)           (* parser.go:487,492 *)
| MOccLower (v : Z) (t : token)                (* parser.go:783 *)
| MOccType (t : token)                         (* parser.go:791 *)
| MNotExist (name : bytes)                     (* parser.go:235,877,922 *)
| MRangeTypes (t : token) (l r : bytes) (vl vr : node)  (* parser.go:841 *)
| MFloatForInt                                 (* parser.go:868,884 *)
| MIntUpper                                    (* parser.go:886 *)
| MIntForFloat                                 (* parser.go:913,929 *)
| MFloatUpper.                                 (* parser.go:931 *)

(** parser/diagnostic.go:10-19, [Error]; Prefix is always "parser". *)
Record diag : Type := mkDiag { dStart : position; dEnd : position; dMsg : msg }.

(** strings.Join(toks, ", ") *)
Fixpoint joinComma (l : list bytes) : bytes :=
  match l with
  | [] => []
  | [x] => x
  | x :: r => x ++ str ", " ++ joinComma r
  end.

(** Formatting of a message. [fmtV] is fmt's %+v on a node and [quote] is
    strconv.Quote; both are outside the model. *)
Definition renderMsg (fmtV : node -> bytes) (quote : bytes -> bytes) (m : msg) : bytes :=
  match m with
  | MExpectedAt t l c =>
    str "expected " ++ tokenString t ++ str " at line " ++ fmtD l ++ str ", column " ++ fmtD c
  | MUnexpectedAt t l c =>
    str "unexpected token " ++ tokenString t ++ str " at line " ++ fmtD l ++ str ", column " ++ fmtD c
  | MExpectedAssign n =>
    str "expected assigment operators =, /= or //= after identifer `" ++ n ++ str "`"
  | MExisting n l c =>
    str "existing declaration for identifier " ++ n ++ str " at line " ++ fmtD l
    ++ str ", column " ++ fmtD c
  | MUnexpectedLiteral l => str "unexpected literal " ++ l
  | MExpectedUintLiteral => str "expected uint literal"
  | MExpectedIntegerLiteral => str "expected integer literal"
  | MUnsupportedTypes op l =>
    str "operator " ++ op ++ str " only supports tokens " ++ joinComma (map tokenString l)
  | MTagMajor => str "failed to parse tag major"
  | MInvalidTag l => str "invalid tag " ++ l
  | MNumError e s =>
    str "strconv.ParseUint: parsing " ++ quote s ++ str ": "
    ++ match e with ErrSyntax => str "invalid syntax" | ErrRange => str "value out of range" end
  | MOccLower v t =>
    str "Lower bound " ++ fmtD v ++ str " to occurrence operator " ++ tokenString t
    ++ str " should not be less than zero"
  | MOccType t =>
    str "unexpected lower bound type for operator " ++ tokenString t ++ str ", should be uint"
  | MNotExist n => str "identifier " ++ n ++ str " referenced does not exist"
  | MRangeTypes t l r vl vr =>
    str "operator " ++ tokenString t
    ++ str " expected same type min, max values. The values of " ++ l ++ str " and " ++ r
    ++ str " resolve to " ++ fmtV vl ++ str " and " ++ fmtV vr
  | MFloatForInt => str "cannot use float literal as upper bound to int range"
  | MIntUpper => str "expected integer upper bound"
  | MIntForFloat => str "cannot use integer literal as upper bound to float range"
  | MFloatUpper => str "expected float upper bound"
  end.

(** parser/diagnostic.go:24-26, [Error.String]. *)
Definition diagString (fmtV : node -> bytes) (quote : bytes -> bytes) (d : diag) : bytes :=
  str "parser error: " ++ renderMsg fmtV quote (dMsg d).

(** parser/diagnostic.go:29-31, [Error.Diagnostic]. *)
Definition diagDiagnostic (fmtV : node -> bytes) (quote : bytes -> bytes) (d : diag) : bytes :=
  diagString fmtV quote d ++ str " at " ++ rangeString (mkRange (dStart d) (dEnd d)).

(** parser/diagnostic.go:64-71, [ErrorList.String]; '\n' is 10. *)
Definition errorListString (fmtV : node -> bytes) (quote : bytes -> bytes) (l : list diag) : bytes :=
  flat_map (fun d => diagString fmtV quote d ++ [10]) l.

(** parser/diagnostic.go:77-82, [ErrorList.Start]. *)
Definition errorListStart (l : list diag) : position :=
  match l with d :: _ => dStart d | [] => zeroPos end.

(** parser/diagnostic.go:84-90, [ErrorList.End]. *)
Definition errorListEnd (l : list diag) : position :=
  match l with d :: r => dEnd (last r d) | [] => zeroPos end.

(** parser/diagnostic.go:96-101, [ErrorList.Collect]; [None] is nil. *)
Definition collect (l : list diag) : option (list diag) :=
  match l with [] => None | _ => Some l end.
