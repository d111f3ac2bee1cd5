(** runtime/validators/validators.go *)
From Verif Require Import Base.
Open Scope Z_scope.

(** A binary IEEE-754 format: width of the fraction and of the exponent. *)
Record format754 : Type := mkFmt { fracBits : Z; expBits : Z }.
Definition binary32 : format754 := mkFmt 23 8.
Definition binary64 : format754 := mkFmt 52 11.

(** A Go float is its bit pattern. Go's comparison of floats, on the patterns: the
    sign bit, then exponent and fraction as one number, compared as a signed
    magnitude; a pattern above that of infinity is not a number. *)
Definition signBit (F : format754) : Z := 2 ^ (fracBits F + expBits F).
Definition magnitude (F : format754) (b : Z) : Z := b mod signBit F.
Definition infMag (F : format754) : Z := (2 ^ expBits F - 1) * 2 ^ fracBits F.
Definition isNaN (F : format754) (b : Z) : bool := infMag F <? magnitude F b.
Definition key (F : format754) (b : Z) : Z :=
  if b <? signBit F then magnitude F b else - magnitude F b.
Definition fltb (F : format754) (a b : Z) : bool :=
  negb (isNaN F a) && negb (isNaN F b) && (key F a <? key F b).
Definition fleb (F : format754) (a b : Z) : bool :=
  negb (isNaN F a) && negb (isNaN F b) && (key F a <=? key F b).

(** validators.go:12-15, [NumericOrdered]: the integer types, of which only the
    order matters here, and the float types. *)
Inductive numeric : Type := NInt | NFloat (F : format754).

Definition less (T : numeric) (a b : Z) : bool :=
  match T with NInt => a <? b | NFloat F => fltb F a b end.
Definition lessEq (T : numeric) (a b : Z) : bool :=
  match T with NInt => a <=? b | NFloat F => fleb F a b end.

(** validators.go:20-22, [InExclusiveRange]. *)
Definition inExclusiveRange (T : numeric) (val lower upper : Z) : bool :=
  less T lower val && less T val upper.

(** validators.go:26-28, [InInclusiveRange]. *)
Definition inInclusiveRange (T : numeric) (val lower upper : Z) : bool :=
  lessEq T lower val && lessEq T val upper.

(** validators.go:31-33, [IsLessThan]. *)
Definition isLessThan (T : numeric) (val limit : Z) : bool := less T val limit.

(** validators.go:36-38, [IsGreaterThan]. *)
Definition isGreaterThan (T : numeric) (val limit : Z) : bool := less T limit val.

(** The Go types the generator emits for checked values (gen_base_types.go), plus
    the named types built on them, which have the same size. *)
Inductive goValue : Type :=
| GNil                      (* a nil interface *)
| GUint (n : Z)
| GInt (n : Z)
| GBool (b : bool)
| GString (s : bytes)
| GSlice (s : bytes).

(** [reflect.TypeOf(val).Size()] on a 64-bit platform; a nil interface has no
    type and the call panics. *)
Definition typeSize (v : goValue) : res Z :=
  match v with
  | GNil => Panic
  | GUint _ | GInt _ => Ok 8
  | GBool _ => Ok 1
  | GString _ => Ok 16
  | GSlice _ => Ok 24
  end.

(** validators.go:46-48, [CheckSize]; [size] is a uint. *)
Definition checkSize (v : goValue) (size : Z) : res bool :=
  n <- typeSize v;; Ok (n <? size).

(** validators.go:50-54, [MustBool]. *)
Definition mustBool (out : bool) : res unit := if out then Ok tt else Panic.
