(** The Go slice semantics behind lexer/lexer.go:55, [src: append(src, byte(32))].
    A heap is a finite map from array identities to arrays; a slice is an array
    identity, a start, a length and a capacity. *)
From Verif Require Import Base.

Definition heap := list (nat * bytes).

Definition hget (h : heap) (a : nat) : bytes :=
  match find (fun kv => Nat.eqb (fst kv) a) h with Some kv => snd kv | None => [] end.

Definition hset (h : heap) (a : nat) (v : bytes) : heap := (a, v) :: h.

Record slice : Type := mkSlice { sArr : nat; sOff : nat; sLen : nat; sCap : nat }.

(** A slice lies inside its array. *)
Definition sliceOk (h : heap) (v : slice) : Prop :=
  (sLen v <= sCap v)%nat /\ (sOff v + sCap v <= length (hget h (sArr v)))%nat.

(** The bytes a slice shows. *)
Definition contents (h : heap) (v : slice) : bytes :=
  firstn (sLen v) (skipn (sOff v) (hget h (sArr v))).

(** Write one element of an array. *)
Definition update (l : bytes) (i : nat) (x : Z) : bytes :=
  firstn i l ++ x :: skipn (S i) l.

(** Go's [append(v, x)] for one element (language specification, "Appending to
    and copying slices"): in place when capacity allows, otherwise into the new
    array [fresh], of which [extra] further cells are allocated. *)
Definition append1 (fresh extra : nat) (h : heap) (v : slice) (x : Z) : heap * slice :=
  if Nat.ltb (sLen v) (sCap v) then
    (hset h (sArr v) (update (hget h (sArr v)) (sOff v + sLen v) x),
     mkSlice (sArr v) (sOff v) (S (sLen v)) (sCap v))
  else
    (hset h fresh (contents h v ++ x :: repeat 0 extra),
     mkSlice fresh 0 (S (sLen v)) (S (sLen v) + extra)).

(** lexer/lexer.go:52-66, [NewLexer], seen from the heap: the buffer the lexer
    reads is the result of the append; nothing else is written ([next] only
    reads the buffer). *)
Definition newLexerBuffer (fresh extra : nat) (h : heap) (v : slice) : heap * slice :=
  append1 fresh extra h v 32.
