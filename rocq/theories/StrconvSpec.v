(** Integer numerals, independently of strconv's algorithm. *)
From Verif Require Import Base.
Open Scope Z_scope.

(** [Digit c d]: the character [c] is a digit of value [d] (0-9, a-z, A-Z). *)
Inductive Digit : Z -> Z -> Prop :=
| D_dec : forall d, 0 <= d <= 9 -> Digit (48 + d) d
| D_lower : forall d, 10 <= d <= 35 -> Digit (97 + (d - 10)) d
| D_upper : forall d, 10 <= d <= 35 -> Digit (65 + (d - 10)) d.

(** [Value base a s v]: reading the digits [s] in the given base after the value
    [a] gives [v]; underscores are skipped. *)
Inductive Value (base : Z) : Z -> bytes -> Z -> Prop :=
| V_nil : forall a, Value base a [] a
| V_under : forall a s v, Value base a s v -> Value base a (95 :: s) v
| V_digit : forall a c d s v, Digit c d -> d < base -> Value base (a * base + d) s v -> Value base a (c :: s) v.

(** [Prefixed s base pre ds]: [s] is the base prefix [pre] and the digits [ds]. *)
Inductive Prefixed : bytes -> Z -> bytes -> bytes -> Prop :=
| P_bin : forall c ds, c = 98 \/ c = 66 -> ds <> [] -> Prefixed (48 :: c :: ds) 2 [48; c] ds
| P_oct : forall c ds, c = 111 \/ c = 79 -> ds <> [] -> Prefixed (48 :: c :: ds) 8 [48; c] ds
| P_hex : forall c ds, c = 120 \/ c = 88 -> ds <> [] -> Prefixed (48 :: c :: ds) 16 [48; c] ds
| P_zero : forall ds, Prefixed (48 :: ds) 8 [48] ds
| P_dec : forall s, s <> [] -> hd 0 s <> 48 -> Prefixed s 10 [] s.

Definition isDig (base : Z) (c : Z) : Prop := exists d, Digit c d /\ d < base.

(** Each underscore stands between digits, or between a base prefix and a digit. *)
Definition underOk (base : Z) (pre ds : bytes) : Prop :=
  forall a b, ds = a ++ 95 :: b ->
    (pre <> [] /\ a = [] \/ exists a' c, a = a' ++ [c] /\ isDig base c) /\
    (exists c b', b = c :: b' /\ isDig base c).

(** [Numeral s v]: [s] is a well formed numeral of value [v]. *)
Definition Numeral (s : bytes) (v : Z) : Prop :=
  exists base pre ds, Prefixed s base pre ds /\ Value base 0 ds v /\ underOk base pre ds.
