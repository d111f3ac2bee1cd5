(** strconv of the Go standard library as used by parser/parser.go:300,429,485,490,608
    and transforms/codegen/golang/gen_identifiers.go:30, always with base 0 and 64 bits. *)
From Verif Require Import Base.

(** The two kinds of [*NumError]: ErrSyntax and ErrRange. *)
Inductive numErr : Type := ErrSyntax | ErrRange.

Definition two63 : Z := 9223372036854775808.
Definition two64 : Z := 18446744073709551616.
Definition maxUint64 : Z := 18446744073709551615.

(** [lower(c) = c | ('x' - 'X')]. *)
Definition lower (c : Z) : Z := Z.lor c 32.

(** Value of one digit character, [None] when it is not one (strconv.ParseUint's
    inner switch, without the underscore case). *)
Definition digitVal (c : Z) : option Z :=
  if (48 <=? c) && (c <=? 57) then Some (c - 48)
  else if (97 <=? lower c) && (lower c <=? 122) then Some (lower c - 97 + 10)
  else None.

(** Prefix detection for base 0: the base and the remaining digits. *)
Definition splitBase (s : bytes) : Z * bytes :=
  match s with
  | 48 :: c :: d :: r =>
    if lower c =? 98 then (2, d :: r)
    else if lower c =? 111 then (8, d :: r)
    else if lower c =? 120 then (16, d :: r)
    else (8, c :: d :: r)
  | 48 :: r => (8, r)
  | _ => (10, s)
  end.

(** The accumulation loop of strconv.ParseUint; [inl] is an error. uint64
    arithmetic wraps modulo 2^64. *)
Fixpoint parseLoop (base cutoff : Z) (s : bytes) (n : Z) (under : bool) : numErr + (Z * bool) :=
  match s with
  | [] => inr (n, under)
  | c :: r =>
    if c =? 95 then parseLoop base cutoff r n true
    else match digitVal c with
    | None => inl ErrSyntax
    | Some d =>
      if base <=? d then inl ErrSyntax
      else if cutoff <=? n then inl ErrRange
      else let m := (n * base) mod two64 in
           let n1 := (m + d) mod two64 in
           if (n1 <? m) || (maxUint64 <? n1) then inl ErrRange
           else parseLoop base cutoff r n1 under
    end
  end.

(** strconv.underscoreOK. [saw]: 94 '^' start, 48 '0' digit, 95 '_', 33 '!' other. *)
Fixpoint underscoreLoop (hex : bool) (s : bytes) (saw : Z) : bool :=
  match s with
  | [] => negb (saw =? 95)
  | c :: r =>
    if ((48 <=? c) && (c <=? 57)) || (hex && (97 <=? lower c) && (lower c <=? 102))
    then underscoreLoop hex r 48
    else if c =? 95 then (if saw =? 48 then underscoreLoop hex r 95 else false)
    else if saw =? 95 then false
    else underscoreLoop hex r 33
  end.

Definition underscoreOK (s : bytes) : bool :=
  let s1 := match s with c :: r => if (c =? 45) || (c =? 43) then r else s | [] => s end in
  match s1 with
  | 48 :: c :: r =>
    if (lower c =? 98) || (lower c =? 111) || (lower c =? 120)
    then underscoreLoop (lower c =? 120) r 48
    else underscoreLoop false s1 94
  | _ => underscoreLoop false s1 94
  end.

(** strconv.ParseUint(s, 0, 64). *)
Definition parseUint (s : bytes) : numErr + Z :=
  match s with
  | [] => inl ErrSyntax
  | _ =>
    let '(base, ds) := splitBase s in
    match parseLoop base (maxUint64 / base + 1) ds 0 false with
    | inl e => inl e
    | inr (n, under) => if under && negb (underscoreOK s) then inl ErrSyntax else inr n
    end
  end.

(** strconv.ParseInt(s, 0, 64). On ErrRange of the inner call Go continues with
    the saturated value 2^64-1, which is again out of range. *)
Definition parseInt (s : bytes) : numErr + Z :=
  match s with
  | [] => inl ErrSyntax
  | c :: r =>
    let neg := c =? 45 in
    let s1 := if (c =? 43) || neg then r else s in
    let un := match parseUint s1 with
              | inr n => inr n
              | inl ErrRange => inr maxUint64
              | inl ErrSyntax => inl ErrSyntax
              end in
    match un with
    | inl e => inl e
    | inr n =>
      if negb neg && (two63 <=? n) then inl ErrRange
      else if neg && (two63 <? n) then inl ErrRange
      else inr (if neg then - n else n)
    end
  end.
