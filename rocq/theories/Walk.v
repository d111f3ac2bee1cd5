(** ast/astutils/walk.go *)
From Verif Require Import Base Token Ast.

(** walk.go:9-11, [Visitor]: [visit v n s] is [v.Visit(n)] run in state [s] (whatever
    the visitors share and write); it gives the new state and the visitor for the
    children, [None] for nil. A visitor may panic. Visitors that modify the tree
    while it is walked are in HeapWalk.v. *)
Definition visitor (V S : Type) : Type := V -> node -> S -> res (S * option V).

(** [Walk] on a node without children: walk.go:14-16 and 187. *)
Definition walkLeaf {V S} (visit : visitor V S) (v : V) (n : node) (s : S) : res S :=
  '(s, r) <- visit v n s;;
  match r with
  | None => Ok s
  | Some v' => '(s, _) <- visit v' NNil s;; Ok s
  end.

(** A nullable pointer field walked when it is not nil. *)
Definition walkUint {V S} (visit : visitor V S) (v : V) (u : option uintLit) (s : S) : res S :=
  match u with None => Ok s | Some u => walkLeaf visit v (NUintLiteral u) s end.
Definition walkComment {V S} (visit : visitor V S) (v : V) (c : option comment) (s : S) : res S :=
  match c with None => Ok s | Some c => walkLeaf visit v (NComment c) s end.

(** The cases of the switch that touch no field of the node (walk.go:25-32, 39-40,
    77-81, 96-106, 113-114, 162-166, 176-177): fine on a nil pointer too. *)
Definition passKind (k : kind) : bool :=
  match k with
  | KBooleanType | KBytesType | KBstrType | KComment | KFloatType | KFloatLiteral | KIdentifier
  | KIntegerType | KNegativeIntegerType | KIntegerLiteral | KNullType | KTextLiteral | KTstrType
  | KUintLiteral => true
  | _ => false
  end.

(** walk.go:13-188, [Walk]. The [Name] fields are never nil in this code base. *)
Fixpoint walk {V S} (visit : visitor V S) (v0 : V) (n : node) (s : S) {struct n} : res S :=
  '(s, r) <- visit v0 n s;;
  match r with
  | None => Ok s                                              (* 14-16 *)
  | Some v =>
      let sub := fun c s => match c with NNil => Ok s | _ => walk visit v c s end in
      let all := (fix all (l : list node) (s : S) : res S :=
                    match l with [] => Ok s | c :: l => s <- walk visit v c s;; all l s end) in
      s <- match n with
           | NArray _ l => all l s                            (* 20-23 *)
           | NCDDL _ l => all l s                             (* 34-37 *)
           | NComparator _ _ _ l r => s <- sub l s;; sub r s  (* 42-48 *)
           | NRegexp _ _ b r =>                               (* 50-56 *)
               s <- match b with None => Ok s | Some (p, t) => walkLeaf visit v (NTstrType p t) s end;; sub r s
           | NSizeOp _ _ size ty => s <- sub ty s;; sub size s (* 58-64 *)
           | NEntry _ i val tc =>                             (* 66-75 *)
               s <- walkLeaf visit v (NIdentifier i) s;; s <- sub val s;; walkComment visit v tc s
           | NGroup _ l => all l s                            (* 83-86 *)
           | NGroupChoice _ _ a b => s <- sub a s;; sub b s   (* 88-94 *)
           | NMap _ _ l => all l s                            (* 108-111 *)
           | NOptional _ _ i => sub i s                       (* 116-119 *)
           | NNMOccurrence _ _ a b i =>                       (* 121-130 *)
               s <- walkUint visit v a s;; s <- walkUint visit v b s;; sub i s
           | NRange _ _ a b => s <- sub a s;; sub b s         (* 132-138 *)
           | NRule _ i val tc =>                              (* 140-149 *)
               s <- walkLeaf visit v (NIdentifier i) s;; s <- sub val s;; walkComment visit v tc s
           | NTag _ _ a b i =>                                (* 151-160 *)
               s <- walkUint visit v a s;; s <- walkUint visit v b s;; sub i s
           | NTypeChoice _ _ a b => s <- sub a s;; sub b s    (* 168-174 *)
           | NUnwrap _ _ i => sub i s                         (* 179-182 *)
           | _ => match typeOf n with                         (* the empty cases and 183-184 *)
                  | Some k => if passKind k then Ok s else Panic
                  | None => Panic
                  end
           end;;
      '(s, _) <- visit v NNil s;; Ok s                        (* 187 *)
  end.
