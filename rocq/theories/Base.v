(** Basic vocabulary shared by the model: Go byte strings, results of Go
    computations, slicing. Everything here models features of the Go language
    itself rather than a file of /repo; each definition says which. *)
From Coq Require Import String Ascii.
From Coq Require Export List ZArith Lia Bool.
Export ListNotations.
Open Scope Z_scope.

(** A Go [byte], [rune] or [int] is a [Z]; a Go string or byte slice (by value)
    is a list of bytes. *)
Definition bytes := list Z.

(** A Go string literal. Used only to write constants such as ["float16"]. *)
Fixpoint str (s : string) : bytes :=
  match s with
  | EmptyString => []
  | String a r => Z.of_N (N_of_ascii a) :: str r
  end.

(** A list of bytes all of whose elements are Go bytes. *)
Definition isByte (b : Z) : bool := (0 <=? b) && (b <? 256).

(** Outcome of a Go computation: a value, a run-time panic, a loop of the Go
    program that never ends, or (parser only) exhausted recursion fuel. *)
Inductive res (A : Type) : Type :=
| Ok (a : A)
| Panic
| Hang
| NoFuel.
Arguments Ok {A} a.
Arguments Panic {A}.
Arguments Hang {A}.
Arguments NoFuel {A}.

Definition rbind {A B} (x : res A) (f : A -> res B) : res B :=
  match x with
  | Ok a => f a
  | Panic => Panic
  | Hang => Hang
  | NoFuel => NoFuel
  end.

Notation "x <- e ;; k" := (rbind e (fun x => k))
  (at level 61, e at next level, right associativity).
Notation "' p <- e ;; k" := (rbind e (fun p => k))
  (at level 61, p pattern, e at next level, right associativity).

(** Go's [s[a:b]] on a byte slice: panics unless 0 <= a <= b <= len(s). (Go's
    upper limit is cap(s); no index in this code base exceeds len(s).) *)
Definition gslice (s : bytes) (a b : Z) : res bytes :=
  if (0 <=? a) && (a <=? b) && (b <=? Z.of_nat (length s))
  then Ok (firstn (Z.to_nat (b - a)) (skipn (Z.to_nat a) s))
  else Panic.

(** Go string equality. *)
Fixpoint beq (a b : bytes) : bool :=
  match a, b with
  | [], [] => true
  | x :: a', y :: b' => (x =? y) && beq a' b'
  | _, _ => false
  end.

(** Go's len() as an int. *)
Definition zlen {A} (l : list A) : Z := Z.of_nat (length l).

(** Decimal formatting, Go's [fmt.Sprintf("%d", n)] / [strconv.FormatInt(n, 10)].
    The fuel is the bit size of the number, which bounds its number of digits. *)
Fixpoint digitsPos (fuel : nat) (n : Z) (acc : bytes) : bytes :=
  match fuel with
  | O => acc
  | S f => if n <? 10 then (48 + n) :: acc
           else digitsPos f (n / 10) ((48 + n mod 10) :: acc)
  end.

Definition fmtD (n : Z) : bytes :=
  if n <? 0 then 45 :: digitsPos (S (Z.to_nat (Z.log2 (- n)))) (- n) []
  else digitsPos (S (Z.to_nat (Z.log2 n))) n [].
