(** environment/environment.go *)
From Verif Require Import Base Token Ast.

(** environment/environment.go:15-17, [Environment]: the symbol map, as an
    association list with distinct keys. *)
Definition environment := list (bytes * node).

(** environment/environment.go:42-46, [NewEnvironment]. *)
Definition newEnvironment : environment := [].

Fixpoint assoc (k : bytes) (e : environment) : option node :=
  match e with
  | [] => None
  | (k', v) :: r => if beq k' k then Some v else assoc k r
  end.

(** environment/environment.go:29-32, [Exists]. *)
Definition exists_ (e : environment) (k : bytes) : bool :=
  match assoc k e with Some _ => true | None => false end.

(** environment/environment.go:34-39, [Get]; nil when absent. *)
Definition get (e : environment) (k : bytes) : node :=
  match assoc k e with Some v => v | None => NNil end.

(** environment/environment.go:20-26, [Add]; the boolean is true when
    [ErrSymbolExists] is returned. *)
Definition add (e : environment) (k : bytes) (v : node) : environment * bool :=
  if exists_ e k then (e, true) else (e ++ [(k, v)], false).
