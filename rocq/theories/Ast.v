(** ast/*.go *)
From Verif Require Import Base Token.

(** The concrete pointer types that implement [ast.Node] (ast/node.go:8-14);
    what [reflect.TypeOf] distinguishes. *)
Inductive kind : Type :=
| KIdentifier | KComment | KCommentGroup | KBooleanType | KBooleanLiteral | KTstrType
| KTextLiteral | KFloatType | KFloatLiteral | KUintType | KUintLiteral | KIntegerType
| KNegativeIntegerType | KIntegerLiteral | KBstrType | KBytesType | KNullType | KEntry
| KTypeChoice | KGroupChoice | KUnwrap | KTag | KEnumeration | KOptional | KNMOccurrence
| KSizeOp | KRegexp | KBits | KComparator | KRange | KGroup | KMap | KArray | KBadNode
| KRule | KCDDL.

Definition kind_eq_dec (a b : kind) : {a = b} + {a <> b}.
Proof. decide equality. Defined.

(** ast/identifier.go:10-13, [Identifier] *)
Record ident : Type := mkIdent { iPos : position; iName : bytes }.

(** ast/comment.go:8-11, [Comment] *)
Record comment : Type := mkComment { cPos : position; cText : bytes }.

(** ast/uint_literal.go:10-14, [UintLiteral] *)
Record uintLit : Type := mkUint { uPos : position; uTok : token; uVal : Z }.

(** An [ast.Node] interface value. Fields are in the order of the Go structs;
    nullable pointer fields are options. Nodes are never mutated once they are
    reachable from elsewhere, so value semantics loses nothing. *)
Inductive node : Type :=
| NNil                                                    (* nil interface *)
| NTypedNil (k : kind)                                    (* interface holding a nil pointer *)
| NIdentifier (i : ident)
| NComment (c : comment)
| NCommentGroup (l : list comment)                        (* ast/comment.go:25-27 *)
| NBooleanType (p : position) (t : token)                 (* ast/boolean.go:6-9 *)
| NBooleanLiteral (r : positionRange) (b : bool)          (* ast/boolean.go:19-22 *)
| NTstrType (p : position) (t : token)                    (* ast/text.go:21-24 *)
| NTextLiteral (p : position) (t : token) (s : bytes)     (* ast/text.go:6-10 *)
| NFloatType (p : position) (t : token) (base : Z)        (* ast/float.go:8-12 *)
| NFloatLiteral (r : positionRange) (t : token) (bits : Z)(* ast/float.go:23-27 *)
| NUintType (r : positionRange) (t : token)               (* ast/uint.go:6-9 *)
| NUintLiteral (u : uintLit)
| NIntegerType (p : position) (t : token)                 (* ast/integer.go:10-13 *)
| NNegativeIntegerType (p : position) (t : token)         (* ast/integer.go:23-26 *)
| NIntegerLiteral (p : position) (t : token) (v : Z)      (* ast/integer.go:37-41 *)
| NBstrType (p : position) (t : token)                    (* ast/bytes.go:6-9 *)
| NBytesType (p : position) (t : token)                   (* ast/bytes.go:12-15 *)
| NNullType (p : position) (t : token)                    (* ast/null.go:6-9 *)
| NEntry (p : position) (name : ident) (value : node) (tc : option comment)  (* ast/entry.go:7-12 *)
| NTypeChoice (p : position) (t : token) (first second : node)   (* ast/typechoice.go:6-10 *)
| NGroupChoice (p : position) (t : token) (first second : node)  (* ast/groupchoice.go:5-9 *)
| NUnwrap (p : position) (t : token) (item : node)               (* ast/unwrap.go:5-9 *)
| NTag (p : position) (t : token) (major number : option uintLit) (item : node)  (* ast/tag.go:5-10 *)
| NEnumeration (p : position) (t : token) (value : node)         (* ast/enumeration.go:5-9 *)
| NOptional (p : position) (t : token) (item : node)             (* ast/occurrence.go:6-10 *)
| NNMOccurrence (p : position) (t : token) (n m : option uintLit) (item : node)  (* ast/occurrence.go:22-27 *)
| NSizeOp (p : position) (t : token) (size typ : node)           (* ast/control_size.go:6-18 *)
| NRegexp (p : position) (t : token) (base : option (position * token)) (regex : node)  (* ast/control_regexp.go:6-11 *)
| NBits (p : position) (t : token) (base constraint : node)      (* ast/control_bits.go:6-18 *)
| NComparator (p : position) (t : token) (operator : bytes) (left right : node)  (* ast/control_comparator.go:9-14 *)
| NRange (p : position) (t : token) (from to : node)             (* ast/range.go:6-10 *)
| NGroup (p : position) (entries : list node)                    (* ast/group.go:10-13 *)
| NMap (p : position) (t : token) (rules : list node)            (* ast/map.go:5-9 *)
| NArray (p : position) (rules : list node)                      (* ast/array.go:7-10 *)
| NBadNode (p : position) (t : token) (base : node) (e : position) (* ast/bad_node.go:6-18 *)
| NRule (p : position) (name : ident) (value : node) (tc : option comment)  (* ast/rule.go:7-12 *)
| NCDDL (p : position) (rules : list node).                      (* ast/cddl_root.go:10-13 *)

(** [reflect.TypeOf]: [None] for the nil interface. *)
Definition typeOf (n : node) : option kind :=
  match n with
  | NNil => None
  | NTypedNil k => Some k
  | NIdentifier _ => Some KIdentifier
  | NComment _ => Some KComment
  | NCommentGroup _ => Some KCommentGroup
  | NBooleanType _ _ => Some KBooleanType
  | NBooleanLiteral _ _ => Some KBooleanLiteral
  | NTstrType _ _ => Some KTstrType
  | NTextLiteral _ _ _ => Some KTextLiteral
  | NFloatType _ _ _ => Some KFloatType
  | NFloatLiteral _ _ _ => Some KFloatLiteral
  | NUintType _ _ => Some KUintType
  | NUintLiteral _ => Some KUintLiteral
  | NIntegerType _ _ => Some KIntegerType
  | NNegativeIntegerType _ _ => Some KNegativeIntegerType
  | NIntegerLiteral _ _ _ => Some KIntegerLiteral
  | NBstrType _ _ => Some KBstrType
  | NBytesType _ _ => Some KBytesType
  | NNullType _ _ => Some KNullType
  | NEntry _ _ _ _ => Some KEntry
  | NTypeChoice _ _ _ _ => Some KTypeChoice
  | NGroupChoice _ _ _ _ => Some KGroupChoice
  | NUnwrap _ _ _ => Some KUnwrap
  | NTag _ _ _ _ _ => Some KTag
  | NEnumeration _ _ _ => Some KEnumeration
  | NOptional _ _ _ => Some KOptional
  | NNMOccurrence _ _ _ _ _ => Some KNMOccurrence
  | NSizeOp _ _ _ _ => Some KSizeOp
  | NRegexp _ _ _ _ => Some KRegexp
  | NBits _ _ _ _ => Some KBits
  | NComparator _ _ _ _ _ => Some KComparator
  | NRange _ _ _ _ => Some KRange
  | NGroup _ _ => Some KGroup
  | NMap _ _ _ => Some KMap
  | NArray _ _ => Some KArray
  | NBadNode _ _ _ _ => Some KBadNode
  | NRule _ _ _ _ => Some KRule
  | NCDDL _ _ => Some KCDDL
  end.

(** Types with a [groupEntry] method: ast/comment.go:22,55, entry.go:21,
    enumeration.go:18, group.go:26, identifier.go:40, occurrence.go:20,37, range.go:23. *)
Definition groupEntryKind (k : kind) : bool :=
  match k with
  | KComment | KCommentGroup | KEntry | KEnumeration | KGroup | KIdentifier | KOptional
  | KNMOccurrence | KRange => true
  | _ => false
  end.

(** The Go type assertion [n.(ast.GroupEntry)] succeeds. *)
Definition isGroupEntry (n : node) : bool :=
  match typeOf n with Some k => groupEntryKind k | None => false end.

(** [Comment.End], ast/comment.go:17-19. *)
Definition comment_end (c : comment) : position := posTo (cPos c) (zlen (cText c)).

(** [UintLiteral.End], ast/uint_literal.go:20-22. *)
Definition uint_end (u : uintLit) : position := posTo (uPos u) (zlen (fmtD (uVal u))).

(** The [Start] methods of ast/*.go; calling one on a nil pointer or nil
    interface panics (every one of them dereferences its receiver). *)
Fixpoint node_start (n : node) : res position :=
  match n with
  | NNil | NTypedNil _ => Panic
  | NIdentifier i => Ok (iPos i)                        (* ast/identifier.go:19-21 *)
  | NComment c => Ok (cPos c)                           (* ast/comment.go:13-15 *)
  | NCommentGroup [] => Ok noPos                        (* ast/comment.go:40-45 *)
  | NCommentGroup (c :: _) => Ok (cPos c)
  | NBooleanType p _ => Ok p                            (* ast/boolean.go:11-13 *)
  | NBooleanLiteral r _ => Ok (rStart r)                (* ast/boolean.go:24-26 *)
  | NTstrType p _ => Ok p                               (* ast/text.go:26-28 *)
  | NTextLiteral p _ _ => Ok p                          (* ast/text.go:12-14 *)
  | NFloatType p _ _ => Ok p                            (* ast/float.go:14-16 *)
  | NFloatLiteral r _ _ => Ok (rStart r)                (* ast/float.go:29-31 *)
  | NUintType r _ => Ok (rStart r)                      (* ast/uint.go:11-13 *)
  | NUintLiteral u => Ok (uPos u)                       (* ast/uint_literal.go:16-18 *)
  | NIntegerType p _ => Ok p                            (* ast/integer.go:15-17 *)
  | NNegativeIntegerType p _ => Ok p                    (* ast/integer.go:28-30 *)
  | NIntegerLiteral p _ _ => Ok p                       (* ast/integer.go:43-45 *)
  | NBstrType p _ => Ok p                               (* ast/bytes.go:25-27 *)
  | NBytesType p _ => Ok p                              (* ast/bytes.go:17-19 *)
  | NNullType p _ => Ok p                               (* ast/null.go:11-13 *)
  | NEntry _ name _ _ => Ok (iPos name)                 (* ast/entry.go:14-16 *)
  | NTypeChoice _ _ a _ => node_start a                 (* ast/typechoice.go:12-14 *)
  | NGroupChoice _ _ a _ => node_start a                (* ast/groupchoice.go:11-13 *)
  | NUnwrap p _ _ => Ok p                               (* ast/unwrap.go:11-13 *)
  | NTag p _ _ _ _ => Ok p                              (* ast/tag.go:12-14 *)
  | NEnumeration p _ _ => Ok p                          (* ast/enumeration.go:11-13 *)
  | NOptional p _ _ => Ok p                             (* ast/occurrence.go:12-14 *)
  | NNMOccurrence _ _ (Some u) _ _ => Ok (uPos u)       (* ast/occurrence.go:29-31 *)
  | NNMOccurrence _ _ None _ _ => Panic
  | NSizeOp _ _ _ ty => node_start ty                   (* ast/control_size.go:21-23 *)
  | NRegexp _ _ (Some (p, _)) _ => Ok p                 (* ast/control_regexp.go:13-15 *)
  | NRegexp _ _ None _ => Panic
  | NBits _ _ b _ => node_start b                       (* ast/control_bits.go:20-22 *)
  | NComparator _ _ _ l _ => node_start l               (* ast/control_comparator.go:16-18 *)
  | NRange _ _ f _ => node_start f                      (* ast/range.go:13-15 *)
  | NGroup p _ => Ok p                                  (* ast/group.go:15-17 *)
  | NMap p _ _ => Ok p                                  (* ast/map.go:11-13 *)
  | NArray p _ => Ok p                                  (* ast/array.go:12-14 *)
  | NBadNode _ _ b _ => node_start b                    (* ast/bad_node.go:21-23 *)
  | NRule _ name _ _ => Ok (iPos name)                  (* ast/rule.go:14-16 *)
  | NCDDL p _ => Ok p                                   (* ast/cddl_root.go:24-26 *)
  end.

(** The [End] methods of ast/*.go. *)
Fixpoint node_end (n : node) : res position :=
  let last_end := (fix le (l : list node) : res position :=
                     match l with
                     | [] => Ok noPos
                     | [x] => node_end x
                     | _ :: r => le r
                     end) in
  match n with
  | NNil | NTypedNil _ => Panic
  | NIdentifier i => Ok (posTo (iPos i) (zlen (iName i)))        (* ast/identifier.go:23-25 *)
  | NComment c => Ok (comment_end c)                             (* ast/comment.go:17-19 *)
  | NCommentGroup [] => Ok noPos                                 (* ast/comment.go:47-52 *)
  | NCommentGroup (c :: l) => Ok (comment_end (last l c))
  | NBooleanType p _ => Ok (posTo p 4)                           (* ast/boolean.go:15-17 *)
  | NBooleanLiteral r _ => Ok (rEnd r)                           (* ast/boolean.go:28-30 *)
  | NTstrType p _ => Ok (posTo p 4)                              (* ast/text.go:30-32 *)
  | NTextLiteral p _ s => Ok (posTo p (zlen s))                  (* ast/text.go:16-18 *)
  | NFloatType p _ _ => Ok (posTo p 5)                           (* ast/float.go:18-20 *)
  | NFloatLiteral r _ _ => Ok (rEnd r)                           (* ast/float.go:33-35 *)
  | NUintType r _ => Ok (rEnd r)                                 (* ast/uint.go:15-17 *)
  | NUintLiteral u => Ok (uint_end u)                            (* ast/uint_literal.go:20-22 *)
  | NIntegerType p _ => Ok (posTo p 3)                           (* ast/integer.go:19-21 *)
  | NNegativeIntegerType p _ => Ok (posTo p 4)                   (* ast/integer.go:32-34 *)
  | NIntegerLiteral p _ v => Ok (posTo p (zlen (fmtD v)))        (* ast/integer.go:47-49 *)
  | NBstrType p _ => Ok (posTo p 5)                              (* ast/bytes.go:29-31 *)
  | NBytesType p _ => Ok (posTo p 5)                             (* ast/bytes.go:21-23 *)
  | NNullType p _ => Ok (posTo p 4)                              (* ast/null.go:15-17 *)
  | NEntry _ _ v _ => node_end v                                 (* ast/entry.go:17-19 *)
  | NTypeChoice _ _ _ b => node_end b                            (* ast/typechoice.go:16-18 *)
  | NGroupChoice _ _ _ b => node_end b                           (* ast/groupchoice.go:15-17 *)
  | NUnwrap _ _ i => node_end i                                  (* ast/unwrap.go:15-17 *)
  | NTag _ _ _ _ i => e <- node_end i;; Ok (posTo e 1)           (* ast/tag.go:16-18 *)
  | NEnumeration _ _ v => node_end v                             (* ast/enumeration.go:14-16 *)
  | NOptional _ _ i => node_end i                                (* ast/occurrence.go:16-18 *)
  | NNMOccurrence _ _ _ (Some u) _ => Ok (uint_end u)            (* ast/occurrence.go:33-35 *)
  | NNMOccurrence _ _ _ None _ => Panic
  | NSizeOp _ _ s _ => node_end s                                (* ast/control_size.go:26-28 *)
  | NRegexp _ _ _ r => node_end r                                (* ast/control_regexp.go:17-19 *)
  | NBits _ _ _ c => node_end c                                  (* ast/control_bits.go:24-26 *)
  | NComparator _ _ _ _ r => node_end r                          (* ast/control_comparator.go:20-22 *)
  | NRange _ _ _ t => node_end t                                 (* ast/range.go:18-21 *)
  | NGroup _ l => last_end l                                     (* ast/group.go:19-24 *)
  | NMap _ _ l => last_end l                                     (* ast/map.go:15-20 *)
  | NArray _ l => last_end l                                     (* ast/array.go:16-21 *)
  | NBadNode _ _ _ e => Ok e                                     (* ast/bad_node.go:26-28 *)
  | NRule _ _ v _ => node_end v                                  (* ast/rule.go:17-19 *)
  | NCDDL _ l => last_end l                                      (* ast/cddl_root.go:28-33 *)
  end.

(** [Identifier.IsPlug], ast/identifier.go:34-39. '$' is 36. *)
Definition isPlug (i : ident) : bool :=
  match iName i with
  | a :: b :: _ => (a =? 36) && (b =? 36)
  | _ => false
  end.

(** [Identifier.IsSocket], ast/identifier.go:27-32. *)
Definition isSocket (i : ident) : bool :=
  match iName i with
  | [] => false
  | a :: _ => (a =? 36) && negb (isPlug i)
  end.
