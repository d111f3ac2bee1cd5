(** unicode/utf8 of the Go standard library, as used by lexer/lexer.go:203
    ([utf8.DecodeRune]) and lexer/lexer.go:87 ([string(chr)]). *)
From Verif Require Import Base.

(** utf8.RuneError, U+FFFD. *)
Definition RuneError : Z := 65533.

Definition inRangeB (lo hi b : Z) : bool := (lo <=? b) && (b <=? hi).

(** The tables [first] and [acceptRanges] of unicode/utf8: sequence size and the
    admissible interval for the second byte; [None] for ASCII and invalid starts. *)
Definition utf8Lead (p0 : Z) : option (Z * Z * Z) :=
  if inRangeB 194 223 p0 then Some (2, 128, 191)        (* C2..DF *)
  else if p0 =? 224 then Some (3, 160, 191)             (* E0 *)
  else if inRangeB 225 236 p0 then Some (3, 128, 191)   (* E1..EC *)
  else if p0 =? 237 then Some (3, 128, 159)             (* ED *)
  else if inRangeB 238 239 p0 then Some (3, 128, 191)   (* EE..EF *)
  else if p0 =? 240 then Some (4, 144, 191)             (* F0 *)
  else if inRangeB 241 243 p0 then Some (4, 128, 191)   (* F1..F3 *)
  else if p0 =? 244 then Some (4, 128, 143)             (* F4 *)
  else None.

(** utf8.DecodeRune: the first rune of [p] and its width. The bit masks
    [p0&mask2], [b1&maskx], ... and shifts are written as [mod] and [*]. *)
Definition decodeRune (p : bytes) : Z * Z :=
  match p with
  | [] => (RuneError, 0)
  | p0 :: r0 =>
    if p0 <? 128 then (p0, 1)
    else match utf8Lead p0 with
    | None => (RuneError, 1)
    | Some (sz, lo, hi) =>
      match r0 with
      | [] => (RuneError, 1)
      | b1 :: r1 =>
        if sz =? 2 then
          if inRangeB lo hi b1 then ((p0 mod 32) * 64 + b1 mod 64, 2) else (RuneError, 1)
        else match r1 with
        | [] => (RuneError, 1)
        | b2 :: r2 =>
          if sz =? 3 then
            if inRangeB lo hi b1 && inRangeB 128 191 b2
            then ((p0 mod 16) * 4096 + (b1 mod 64) * 64 + b2 mod 64, 3)
            else (RuneError, 1)
          else match r2 with
          | [] => (RuneError, 1)
          | b3 :: _ =>
            if inRangeB lo hi b1 && inRangeB 128 191 b2 && inRangeB 128 191 b3
            then ((p0 mod 8) * 262144 + (b1 mod 64) * 4096 + (b2 mod 64) * 64 + b3 mod 64, 4)
            else (RuneError, 1)
          end
        end
      end
    end
  end.

(** Go's conversion [string(r)] of a rune: its UTF-8 encoding; negative, too
    large and surrogate runes give the encoding of U+FFFD. *)
Definition encodeRune (r : Z) : bytes :=
  if (0 <=? r) && (r <? 128) then [r]
  else if (0 <=? r) && (r <? 2048) then [192 + r / 64; 128 + r mod 64]
  else if (r <? 0) || (1114111 <? r) || inRangeB 55296 57343 r then [239; 191; 189]
  else if r <? 65536 then [224 + r / 4096; 128 + (r / 64) mod 64; 128 + r mod 64]
  else [240 + r / 262144; 128 + (r / 4096) mod 64; 128 + (r / 64) mod 64; 128 + r mod 64].
