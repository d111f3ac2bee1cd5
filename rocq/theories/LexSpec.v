(** Specification vocabulary for the lexer properties. Nothing here refers to
    the lexer model. *)
From Verif Require Import Base Utf8 Token.

(** A list of Go bytes. *)
Definition bytesOk (s : bytes) : Prop := Forall (fun b => 0 <= b < 256) s.

(** UTF-8 decoding of [s] from left to right never yields U+FFFD (neither an
    invalid sequence nor an encoded U+FFFD). *)
Inductive Dec : bytes -> Prop :=
| Dec_nil : Dec []
| Dec_rune : forall s r w,
    s <> [] -> decodeRune s = (r, w) -> r <> RuneError -> Dec (skipn (Z.to_nat w) s) -> Dec s.

(** A source on which decoding always succeeds. *)
Definition decodable (s : bytes) : Prop := bytesOk s /\ Dec s.

(** Number of newline bytes. *)
Fixpoint newlines (s : bytes) : Z :=
  match s with
  | [] => 0
  | c :: r => (if c =? 10 then 1 else 0) + newlines r
  end.

(** Number of bytes after the last newline (all bytes if there is none). *)
Fixpoint sinceNewline (s : bytes) (n : Z) : Z :=
  match s with
  | [] => n
  | c :: r => sinceNewline r (if c =? 10 then 0 else n + 1)
  end.

(** The position of byte number [k] of [s]: line and column are 1-based. *)
Definition posAt (s : bytes) (k : nat) : position :=
  let pre := firstn k s in
  mkPos [] (Z.of_nat k) (1 + newlines pre) (1 + sinceNewline pre 0).

(** Blank bytes: space, carriage return, newline, tab. *)
Definition blank (c : Z) : Prop := c = 32 \/ c = 13 \/ c = 10 \/ c = 9.
Definition allBlank (s : bytes) : Prop := Forall blank s.
