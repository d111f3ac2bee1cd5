(** Several parsers that were given one environment, parser.go:26-30 ([WithEnv]): the field
    [environment] (parser.go:64) is a pointer, so that each of them sees what the others define.
    Parser.v keeps the environment in the parser; here it is kept once. *)
From Verif Require Import Base Lexer Ext Ast Env Diag Parser.

(** [pParser i] is the [i]-th parser, but for its environment, which is [pEnv]. *)
Record pool : Type := mkPool { pEnv : environment; pParser : nat -> parser }.

Definition withEnv (e : environment) (p : parser) : parser := mkParser (lx p) (cur p) (pk p) (perrors p) e (tasks p).

(** parser.go:78-107, [ParseFile] of the [i]-th parser. *)
Definition call (X : Ext) (fuel : nat) (i : nat) (st : pool) : res (fileResult * pool) :=
  '(r, p) <- parseFile X fuel (withEnv (pEnv st) (pParser st i));;
  Ok (r, mkPool (env p) (fun j => if Nat.eqb j i then p else pParser st j)).

(** Calls one after the other, and what they return. *)
Fixpoint callAll (X : Ext) (fuel : nat) (l : list nat) (st : pool) : res (list fileResult * pool) :=
  match l with
  | [] => Ok ([], st)
  | i :: l => '(r, st) <- call X fuel i st;; '(rs, st) <- callAll X fuel l st;; Ok (r :: rs, st)
  end.
