(** The grammar of CDDL, RFC 8610 appendix B, over UTF-8 encoded text, read as a
    context-free grammar. Nothing here is taken from /repo; the names are those of
    the ABNF. *)
From Coq Require Import String.
From Verif Require Import Base.
Open Scope string_scope.
Open Scope list_scope.
Open Scope Z_scope.

(** ** Characters *)

Definition ALPHA (c : Z) : Prop := 65 <= c <= 90 \/ 97 <= c <= 122.
Definition EALPHA (c : Z) : Prop := ALPHA c \/ c = 64 \/ c = 95 \/ c = 36.
Definition DIGIT (c : Z) : Prop := 48 <= c <= 57.
Definition DIGIT1 (c : Z) : Prop := 49 <= c <= 57.
(** Strings of ABNF are case-insensitive. *)
Definition eitherCase (c x : Z) : Prop := x = c \/ x = c - 32.
Definition HEXDIG (c : Z) : Prop := DIGIT c \/ 65 <= c <= 70 \/ 97 <= c <= 102.
Definition BINDIG (c : Z) : Prop := c = 48 \/ c = 49.

(** %x80-10FFFD in UTF-8 (RFC 3629). *)
Definition tailByte (b : Z) : Prop := 128 <= b <= 191.
Inductive Wide : bytes -> Prop :=
| wide2 a b : 194 <= a <= 223 -> tailByte b -> Wide [a; b]
| wide3 a b c : 224 <= a <= 239 -> (a = 224 -> 160 <= b) -> (a = 237 -> b <= 159) -> tailByte b -> tailByte c -> Wide [a; b; c]
| wide4 a b c d : 240 <= a <= 244 -> (a = 240 -> 144 <= b) -> (a = 244 -> b <= 143) -> tailByte b -> tailByte c -> tailByte d ->
    ~ (a = 244 /\ b = 143 /\ c = 191 /\ 190 <= d) -> Wide [a; b; c; d].

(** *P *)
Inductive Star (P : bytes -> Prop) : bytes -> Prop :=
| star_nil : Star P []
| star_cons a b : P a -> Star P b -> Star P (a ++ b).

(** 1*c *)
Definition Many (P : Z -> Prop) (w : bytes) : Prop := w <> [] /\ Forall P w.

Inductive CRLF : bytes -> Prop :=
| crlf_lf : CRLF [10]
| crlf_cr : CRLF [13; 10].

Inductive PCHAR : bytes -> Prop :=
| pchar_ascii c : 32 <= c <= 126 -> PCHAR [c]
| pchar_wide w : Wide w -> PCHAR w.

Inductive WS : bytes -> Prop :=
| ws_sp : WS [32]
| ws_crlf w : CRLF w -> WS w
| ws_comment w n : Star PCHAR w -> CRLF n -> WS (59 :: w ++ n).

Definition S_ : bytes -> Prop := Star WS.

(** ** Identifiers and values *)

Inductive idTail : bytes -> Prop :=
| idt_nil : idTail []
| idt_cons ds c r : Forall (fun x => x = 45 \/ x = 46) ds -> EALPHA c \/ DIGIT c -> idTail r -> idTail (ds ++ c :: r).
Inductive id : bytes -> Prop :=
| id_intro c r : EALPHA c -> idTail r -> id (c :: r).

Inductive uint : bytes -> Prop :=
| uint_dec c w : DIGIT1 c -> Forall DIGIT w -> uint (c :: w)
| uint_hex x w : eitherCase 120 x -> Many HEXDIG w -> uint (48 :: x :: w)
| uint_bin x w : eitherCase 98 x -> Many BINDIG w -> uint (48 :: x :: w)
| uint_zero : uint [48].

Inductive int : bytes -> Prop :=
| int_pos w : uint w -> int w
| int_neg w : uint w -> int (45 :: w).

Inductive exponent : bytes -> Prop :=
| exp_plain w : Many DIGIT w -> exponent w
| exp_sign c w : c = 43 \/ c = 45 -> Many DIGIT w -> exponent (c :: w).

Inductive number : bytes -> Prop :=
| num_int a : int a -> number a
| num_frac a f : int a -> Many DIGIT f -> number (a ++ 46 :: f)
| num_exp a x e : int a -> eitherCase 101 x -> exponent e -> number (a ++ x :: e)
| num_both a f x e : int a -> Many DIGIT f -> eitherCase 101 x -> exponent e -> number (a ++ 46 :: f ++ x :: e)
| num_hex m x a y e : m = [] \/ m = [45] -> eitherCase 120 x -> Many HEXDIG a -> eitherCase 112 y -> exponent e -> number (m ++ 48 :: x :: a ++ y :: e)
| num_hexfrac m x a f y e : m = [] \/ m = [45] -> eitherCase 120 x -> Many HEXDIG a -> Many HEXDIG f -> eitherCase 112 y -> exponent e ->
    number (m ++ 48 :: x :: a ++ 46 :: f ++ y :: e).

Inductive SESC : bytes -> Prop :=
| sesc_ascii c : 32 <= c <= 126 -> SESC [92; c]
| sesc_wide w : Wide w -> SESC (92 :: w).

Inductive SCHAR : bytes -> Prop :=
| schar_ascii c : 32 <= c <= 126 -> c <> 34 -> c <> 92 -> SCHAR [c]
| schar_wide w : Wide w -> SCHAR w
| schar_esc w : SESC w -> SCHAR w.

Inductive BCHAR : bytes -> Prop :=
| bchar_ascii c : 32 <= c <= 127 -> c <> 39 -> c <> 92 -> BCHAR [c]
| bchar_wide w : Wide w -> BCHAR w
| bchar_esc w : SESC w -> BCHAR w
| bchar_crlf w : CRLF w -> BCHAR w.

Inductive value : bytes -> Prop :=
| val_number w : number w -> value w
| val_text w : Star SCHAR w -> value (34 :: w ++ [34])
| val_bytes q w : In q [[]; str "h"; str "b64"; str "H"; str "B64"] -> Star BCHAR w -> value (q ++ 39 :: w ++ [39]).

(** ** Types and groups *)

Inductive occur : bytes -> Prop :=
| occ_opt : occur [63]
| occ_plus : occur [43]
| occ_star a b : a = [] \/ uint a -> b = [] \/ uint b -> occur (a ++ 42 :: b).

Inductive optOccur : bytes -> Prop :=
| oo_none : optOccur []
| oo_some o s : occur o -> S_ s -> optOccur (o ++ s).

Inductive optcom : bytes -> Prop :=
| oc_none s : S_ s -> optcom s
| oc_comma s t : S_ s -> S_ t -> optcom (s ++ 44 :: t).

Inductive rangeOrCtl : bytes -> Prop :=
| rc_range2 : rangeOrCtl (str "..")
| rc_range3 : rangeOrCtl (str "...")
| rc_ctl w : id w -> rangeOrCtl (46 :: w).

Inductive type : bytes -> Prop :=
| type_one a : type1 a -> type a
| type_more a s t b : type1 a -> S_ s -> S_ t -> type b -> type (a ++ s ++ 47 :: t ++ b)
with type1 : bytes -> Prop :=
| type1_one a : type2 a -> type1 a
| type1_op a s o t b : type2 a -> S_ s -> rangeOrCtl o -> S_ t -> type2 b -> type1 (a ++ s ++ o ++ t ++ b)
with type2 : bytes -> Prop :=
| type2_value w : value w -> type2 w
| type2_name w g : id w -> optArg g -> type2 (w ++ g)
| type2_paren s a t : S_ s -> type a -> S_ t -> type2 (40 :: s ++ a ++ t ++ [41])
| type2_map s g t : S_ s -> group g -> S_ t -> type2 (123 :: s ++ g ++ t ++ [125])
| type2_array s g t : S_ s -> group g -> S_ t -> type2 (91 :: s ++ g ++ t ++ [93])
| type2_unwrap s w g : S_ s -> id w -> optArg g -> type2 (126 :: s ++ w ++ g)
| type2_enum s t g u : S_ s -> S_ t -> group g -> S_ u -> type2 (38 :: s ++ 40 :: t ++ g ++ u ++ [41])
| type2_enumName s w g : S_ s -> id w -> optArg g -> type2 (38 :: s ++ w ++ g)
| type2_tag n s a t : n = [] \/ (exists u, uint u /\ n = 46 :: u) -> S_ s -> type a -> S_ t -> type2 (35 :: 54 :: n ++ 40 :: s ++ a ++ t ++ [41])
| type2_major d n : DIGIT d -> n = [] \/ (exists u, uint u /\ n = 46 :: u) -> type2 (35 :: d :: n)
| type2_any : type2 [35]
with optArg : bytes -> Prop :=
| oa_none : optArg []
| oa_some a : args a -> optArg (60 :: a ++ [62])
with args : bytes -> Prop :=
| args_one s a t : S_ s -> type1 a -> S_ t -> args (s ++ a ++ t)
| args_more s a t r : S_ s -> type1 a -> S_ t -> args r -> args (s ++ a ++ t ++ 44 :: r)
with group : bytes -> Prop :=
| group_one c : grpchoice c -> group c
| group_more c s t r : grpchoice c -> S_ s -> S_ t -> group r -> group (c ++ s ++ 47 :: 47 :: t ++ r)
with grpchoice : bytes -> Prop :=
| gc_nil : grpchoice []
| gc_cons e c r : grpent e -> optcom c -> grpchoice r -> grpchoice (e ++ c ++ r)
with grpent : bytes -> Prop :=
| ge_type o k a : optOccur o -> optKey k -> type a -> grpent (o ++ k ++ a)
| ge_name o w g : optOccur o -> id w -> optArg g -> grpent (o ++ w ++ g)
| ge_group o s g t : optOccur o -> S_ s -> group g -> S_ t -> grpent (o ++ 40 :: s ++ g ++ t ++ [41])
with optKey : bytes -> Prop :=
| ok_none : optKey []
| ok_some k s : memberkey k -> S_ s -> optKey (k ++ s)
with memberkey : bytes -> Prop :=
| mk_arrow a s : type1 a -> S_ s -> memberkey (a ++ s ++ str "=>")
| mk_cut a s t : type1 a -> S_ s -> S_ t -> memberkey (a ++ s ++ 94 :: t ++ str "=>")
| mk_bare w s : id w -> S_ s -> memberkey (w ++ s ++ [58])
| mk_value w s : value w -> S_ s -> memberkey (w ++ s ++ [58]).

(** ** Rules *)

Inductive params : bytes -> Prop :=
| pa_one s w t : S_ s -> id w -> S_ t -> params (s ++ w ++ t)
| pa_more s w t r : S_ s -> id w -> S_ t -> params r -> params (s ++ w ++ t ++ 44 :: r).
Inductive optParm : bytes -> Prop :=
| op_none : optParm []
| op_some a : params a -> optParm (60 :: a ++ [62]).

Inductive rule : bytes -> Prop :=
| rule_type w g s o t a : id w -> optParm g -> S_ s -> In o [str "="; str "/="] -> S_ t -> type a -> rule (w ++ g ++ s ++ o ++ t ++ a)
| rule_group w g s o t a : id w -> optParm g -> S_ s -> In o [str "="; str "//="] -> S_ t -> grpent a -> rule (w ++ g ++ s ++ o ++ t ++ a).

Inductive rules : bytes -> Prop :=
| rules_one r s : rule r -> S_ s -> rules (r ++ s)
| rules_more r s q : rule r -> S_ s -> rules q -> rules (r ++ s ++ q).

Inductive cddl : bytes -> Prop :=
| cddl_intro s r : S_ s -> rules r -> cddl (s ++ r).

Scheme type_mind := Minimality for type Sort Prop
  with type1_mind := Minimality for type1 Sort Prop
  with type2_mind := Minimality for type2 Sort Prop
  with optArg_mind := Minimality for optArg Sort Prop
  with args_mind := Minimality for args Sort Prop
  with group_mind := Minimality for group Sort Prop
  with grpchoice_mind := Minimality for grpchoice Sort Prop
  with grpent_mind := Minimality for grpent Sort Prop
  with optKey_mind := Minimality for optKey Sort Prop
  with memberkey_mind := Minimality for memberkey Sort Prop.
Combined Scheme types_mind from type_mind, type1_mind, type2_mind, optArg_mind, args_mind, group_mind, grpchoice_mind, grpent_mind, optKey_mind, memberkey_mind.
