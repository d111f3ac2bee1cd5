(** What the document of a tree is: one object per node, with the exported fields of its
    struct in the order of the declaration. *)
From Coq Require Import String.
From Verif Require Import Base Token Ast Json.
Open Scope string_scope.
Open Scope list_scope.
Open Scope Z_scope.

(** The content of a field. *)
Inductive part : Type :=
| PInt (n : Z)
| PText (s : bytes)
| PBool (b : bool)
| PFloat (bits : Z)
| PPos (p : position)
| PRange (r : positionRange)
| PIdent (i : ident)
| PComment (c : option comment)
| PComments (l : list comment)
| PUint (u : option uintLit)
| PBase (b : option (position * token))
| PNode (n : node)
| PNodes (l : list node)
| PRules (l : list node).

Definition PTok (t : token) : part := PInt (tokIdx t).

Definition posParts (p : position) : list (string * part) :=
  [("Filename", PText (pFile p)); ("Offset", PInt (pOffset p)); ("Line", PInt (pLine p)); ("Column", PInt (pColumn p))].
Definition rangeParts (r : positionRange) : list (string * part) := [("Start", PPos (rStart r)); ("End", PPos (rEnd r))].
Definition identParts (i : ident) : list (string * part) := [("Pos", PPos (iPos i)); ("Name", PText (iName i))].
Definition commentParts (c : comment) : list (string * part) := [("Pos", PPos (cPos c)); ("Text", PText (cText c))].
Definition uintParts (u : uintLit) : list (string * part) := [("Pos", PPos (uPos u)); ("Token", PTok (uTok u)); ("Literal", PInt (uVal u))].
Definition typeParts (p : position) (t : token) : list (string * part) := [("Pos", PPos p); ("Token", PTok t)].

(** The fields of the structs of ast/*.go. *)
Definition parts (n : node) : list (string * part) :=
  match n with
  | NNil | NTypedNil _ => []
  | NIdentifier i => identParts i
  | NComment c => commentParts c
  | NCommentGroup l => [("List", PComments l)]
  | NBooleanType p t | NTstrType p t | NIntegerType p t | NNegativeIntegerType p t | NBstrType p t | NBytesType p t | NNullType p t => typeParts p t
  | NBooleanLiteral r b => [("Range", PRange r); ("Bool", PBool b)]
  | NTextLiteral p t s => typeParts p t ++ [("Literal", PText s)]
  | NFloatType p t base => typeParts p t ++ [("Base", PInt base)]
  | NFloatLiteral r t bits => [("Range", PRange r); ("Token", PTok t); ("Literal", PFloat bits)]
  | NUintType r t => [("Range", PRange r); ("Token", PTok t)]
  | NUintLiteral u => uintParts u
  | NIntegerLiteral p t v => typeParts p t ++ [("Literal", PInt v)]
  | NEntry p i v c | NRule p i v c => [("Pos", PPos p); ("Name", PIdent i); ("Value", PNode v); ("TrailingComment", PComment c)]
  | NTypeChoice p t a b | NGroupChoice p t a b => typeParts p t ++ [("First", PNode a); ("Second", PNode b)]
  | NUnwrap p t a | NOptional p t a => typeParts p t ++ [("Item", PNode a)]
  | NTag p t a b i => typeParts p t ++ [("Major", PUint a); ("TagNumber", PUint b); ("Item", PNode i)]
  | NEnumeration p t v => typeParts p t ++ [("Value", PNode v)]
  | NNMOccurrence p t a b i => typeParts p t ++ [("N", PUint a); ("M", PUint b); ("Item", PNode i)]
  | NSizeOp p t size typ => typeParts p t ++ [("Size", PNode size); ("Type", PNode typ)]
  | NRegexp p t base regex => typeParts p t ++ [("Base", PBase base); ("Regex", PNode regex)]
  | NBits p t base c => typeParts p t ++ [("Base", PNode base); ("Contstraint", PNode c)]
  | NComparator p t op l r => typeParts p t ++ [("Operator", PText op); ("Left", PNode l); ("Right", PNode r)]
  | NRange p t a b => typeParts p t ++ [("From", PNode a); ("To", PNode b)]
  | NGroup p l => [("Pos", PPos p); ("Entries", PNodes l)]
  | NMap p t l => typeParts p t ++ [("Rules", PNodes l)]
  | NArray p l => [("Pos", PPos p); ("Rules", PNodes l)]
  | NBadNode p t b e => typeParts p t ++ [("Base", PNode b); ("EndPos", PPos e)]
  | NCDDL p l => [("Pos", PPos p); ("Rules", PRules l)]
  end.

(** [Doc J n v]: the node [n] is written as [v]. [Obj J l ms]: the fields [l] are the members
    [ms]. Nil pointers and nil slices are null; only the rules of a file are an empty array
    when there are none. *)
Inductive Doc (J : JsonExt) : node -> json -> Prop :=
| doc_nil : Doc J NNil JNull
| doc_typed k : Doc J (NTypedNil k) JNull
| doc_obj n ms : parts n <> [] -> Obj J (parts n) ms -> Doc J n (JObj ms)
with Obj (J : JsonExt) : list (string * part) -> list (bytes * json) -> Prop :=
| obj_nil : Obj J [] []
| obj_cons k p l v ms : Means J p v -> Obj J l ms -> Obj J ((k, p) :: l) ((str k, v) :: ms)
with Means (J : JsonExt) : part -> json -> Prop :=
| mn_int n : Means J (PInt n) (JNum (fmtD n))
| mn_text s : Means J (PText s) (JStr s)
| mn_bool b : Means J (PBool b) (JBool b)
| mn_float bits t : jFloat J bits = Some t -> Means J (PFloat bits) (JNum t)
| mn_pos p ms : Obj J (posParts p) ms -> Means J (PPos p) (JObj ms)
| mn_range r ms : Obj J (rangeParts r) ms -> Means J (PRange r) (JObj ms)
| mn_ident i ms : Obj J (identParts i) ms -> Means J (PIdent i) (JObj ms)
| mn_noComment : Means J (PComment None) JNull
| mn_comment c ms : Obj J (commentParts c) ms -> Means J (PComment (Some c)) (JObj ms)
| mn_comments0 : Means J (PComments []) JNull
| mn_comments l vs : l <> [] -> Comments J l vs -> Means J (PComments l) (JArr vs)
| mn_noUint : Means J (PUint None) JNull
| mn_uint u ms : Obj J (uintParts u) ms -> Means J (PUint (Some u)) (JObj ms)
| mn_noBase : Means J (PBase None) JNull
| mn_base p t ms : Obj J (typeParts p t) ms -> Means J (PBase (Some (p, t))) (JObj ms)
| mn_node n v : Doc J n v -> Means J (PNode n) v
| mn_nodes0 : Means J (PNodes []) JNull
| mn_nodes l vs : l <> [] -> Docs J l vs -> Means J (PNodes l) (JArr vs)
| mn_rules l vs : Docs J l vs -> Means J (PRules l) (JArr vs)
with Comments (J : JsonExt) : list comment -> list json -> Prop :=
| cms_nil : Comments J [] []
| cms_cons c l ms vs : Obj J (commentParts c) ms -> Comments J l vs -> Comments J (c :: l) (JObj ms :: vs)
with Docs (J : JsonExt) : list node -> list json -> Prop :=
| docs_nil : Docs J [] []
| docs_cons n l v vs : Doc J n v -> Docs J l vs -> Docs J (n :: l) (v :: vs).
