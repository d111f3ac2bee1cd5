(** External behaviour the lexer and parser depend on and that is not in /repo.
    Every theorem quantifies over all values of this record. *)
From Verif Require Import Base.

Record Ext : Type := mkExt {
  (** unicode.IsLetter for runes above U+00FF *)
  xLetter : Z -> bool;
  (** unicode.IsDigit for runes above U+00FF *)
  xDigit : Z -> bool;
  (** strconv.ParseFloat(s, 64): the IEEE-754 bit pattern, or an error *)
  xParseFloat : bytes -> option Z
}.

(** unicode.IsDigit: Latin-1 is decided by '0' <= r <= '9'; false for -1. *)
Definition uniIsDigit (X : Ext) (r : Z) : bool :=
  if r <=? 255 then (48 <=? r) && (r <=? 57) else xDigit X r.

(** unicode.IsLetter: the Latin-1 property table; false for -1. *)
Definition uniIsLetter (X : Ext) (r : Z) : bool :=
  if r <=? 255 then
    ((65 <=? r) && (r <=? 90)) || ((97 <=? r) && (r <=? 122)) || (r =? 170) || (r =? 181)
    || (r =? 186) || ((192 <=? r) && (r <=? 214)) || ((216 <=? r) && (r <=? 246))
    || ((248 <=? r) && (r <=? 255))
  else xLetter X r.
