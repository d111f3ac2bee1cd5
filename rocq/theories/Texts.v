(** ast/comment.go, ast/identifier.go, ast/cddl_root.go: the methods [String]. *)
From Coq Require Import String.
From Verif Require Import Base Token Ast.
Open Scope string_scope.
Open Scope list_scope.
Open Scope Z_scope.

(** ast/identifier.go:15-17, [Identifier.String]. *)
Definition identString (i : ident) : bytes := str "Identifier( Name: " ++ iName i ++ str " ) ".

(** ast/comment.go:29-38, [CommentGroup.String]. [None] is the nil pointer. *)
Definition commentGroupString (cg : option (list comment)) : bytes :=
  match cg with
  | None => []
  | Some l => fold_left (fun out c => out ++ cText c ++ [10]) l []
  end.

(** ast/cddl_root.go:15-22, [CDDL.String]. It prints each entry by [%+v,], which calls
    [String] where there is one (Identifier, CommentGroup, CDDL, Position), writes
    other structures pointed to as [&{...}] at the top and as an address further in.
    Addresses depend on the run: [A k b] is that of field Value ([b] true) or
    TrailingComment of the [k]-th entry. Only pointers to Rule, Comment and CommentGroup are
    entries (ast/cddl_entry.go:3-6); a value is not a file. *)
Definition addrs : Type := nat -> bool -> bytes.

Definition valueText (a : bytes) (v : node) : bytes :=
  match v with
  | NNil => str "<nil>"
  | NTypedNil KCommentGroup => []
  | NTypedNil _ => str "<nil>"
  | NIdentifier i => identString i
  | NCommentGroup l => commentGroupString (Some l)
  | _ => a
  end.

Definition entryText (A : addrs) (k : nat) (n : node) : bytes :=
  match n with
  | NRule p i v tc =>
    str "&{Pos:" ++ posString p ++ str " Name:" ++ identString i ++ str " Value:" ++ valueText (A k true) v
    ++ str " TrailingComment:" ++ match tc with None => str "<nil>" | Some _ => A k false end ++ str "}"
  | NComment c => str "&{Pos:" ++ posString (cPos c) ++ str " Text:" ++ cText c ++ str "}"
  | NCommentGroup l => commentGroupString (Some l)
  | NTypedNil KCommentGroup => []
  | _ => str "<nil>"
  end.

Fixpoint entriesText (A : addrs) (k : nat) (l : list node) : bytes :=
  match l with
  | [] => []
  | n :: r => entryText A k n ++ str "," ++ entriesText A (S k) r
  end.

Definition cddlString (A : addrs) (rules : list node) : bytes :=
  str "CDDL (" ++ entriesText A 0 rules ++ str ")".
