(** The JSON grammar (RFC 8259), with the values texts denote. Written without reference to
    the model's decoder and encoder. *)
From Coq Require Import String.
From Verif Require Import Base Utf8 Json.
Open Scope string_scope.
Open Scope list_scope.
Open Scope Z_scope.

Definition blanks (s : bytes) : Prop := Forall (fun b => In b [32; 9; 10; 13]) s.

(** The code points that have an encoding in UTF-8. *)
Definition scalar (r : Z) : Prop := 0 <= r <= 1114111 /\ ~ 55296 <= r <= 57343.

(** [s] begins with the encoding of a code point beyond ASCII. *)
Definition runeAhead (s : bytes) : Prop := exists r x, scalar r /\ 128 <= r /\ s = encodeRune r ++ x.

Definition hexTable : list (Z * Z) :=
  map (fun n => (48 + n, n)) [0; 1; 2; 3; 4; 5; 6; 7; 8; 9] ++ map (fun n => (87 + n, n)) [10; 11; 12; 13; 14; 15]
  ++ map (fun n => (55 + n, n)) [10; 11; 12; 13; 14; 15].

(** Four hexadecimal digits of value [u]. *)
Inductive Hex4 : bytes -> Z -> Prop :=
| hex_intro a b c d x y z w : In (a, x) hexTable -> In (b, y) hexTable -> In (c, z) hexTable -> In (d, w) hexTable ->
    Hex4 [a; b; c; d] (x * 4096 + y * 256 + z * 16 + w).

Definition escTable : list (Z * Z) := [(34, 34); (92, 92); (47, 47); (98, 8); (102, 12); (110, 10); (114, 13); (116, 9)].

(** A text that is the second half of a surrogate pair. *)
Definition lowAhead (t : bytes) : Prop := exists h v x, Hex4 h v /\ 56320 <= v <= 57343 /\ t = 92 :: 117 :: h ++ x.

(** Text between quotes and the bytes it denotes. The last two rules are not in the RFC: a
    surrogate that is no half of a pair and a byte that is not UTF-8 denote U+FFFD. *)
Inductive Chars : bytes -> bytes -> Prop :=
| cs_nil : Chars [] []
| cs_ascii b t v : 32 <= b < 128 -> b <> 34 -> b <> 92 -> Chars t v -> Chars (b :: t) (b :: v)
| cs_rune r t v : scalar r -> 128 <= r -> Chars t v -> Chars (encodeRune r ++ t) (encodeRune r ++ v)
| cs_short e c t v : In (e, c) escTable -> Chars t v -> Chars (92 :: e :: t) (c :: v)
| cs_hex h u t v : Hex4 h u -> ~ 55296 <= u <= 57343 -> Chars t v -> Chars (92 :: 117 :: h ++ t) (encodeRune u ++ v)
| cs_pair h u h' u' t v : Hex4 h u -> Hex4 h' u' -> 55296 <= u <= 56319 -> 56320 <= u' <= 57343 -> Chars t v ->
    Chars (92 :: 117 :: h ++ 92 :: 117 :: h' ++ t) (encodeRune (65536 + (u - 55296) * 1024 + (u' - 56320)) ++ v)
| cs_lone h u t v : Hex4 h u -> 55296 <= u <= 57343 -> ~ (u <= 56319 /\ lowAhead t) -> Chars t v ->
    Chars (92 :: 117 :: h ++ t) (encodeRune 65533 ++ v)
| cs_bad b t v : 128 <= b -> ~ runeAhead (b :: t) -> Chars t v -> Chars (b :: t) (encodeRune 65533 ++ v).

Definition digits (s : bytes) : Prop := Forall (fun b => 48 <= b <= 57) s.

Definition NumberText (t : bytes) : Prop :=
  exists sign int frac exp, t = sign ++ int ++ frac ++ exp /\
    (sign = [] \/ sign = [45]) /\
    (int = [48] \/ exists d r, int = d :: r /\ 49 <= d <= 57 /\ digits r) /\
    (frac = [] \/ exists ds, frac = 46 :: ds /\ ds <> [] /\ digits ds) /\
    (exp = [] \/ exists e sg ds, exp = e :: sg ++ ds /\ In e [101; 69] /\ In sg [[]; [43]; [45]] /\ ds <> [] /\ digits ds).

Inductive Value : bytes -> json -> Prop :=
| v_null : Value (str "null") JNull
| v_true : Value (str "true") (JBool true)
| v_false : Value (str "false") (JBool false)
| v_num t : NumberText t -> Value t (JNum t)
| v_str t v : Chars t v -> Value (34 :: t ++ [34]) (JStr v)
| v_arr0 w : blanks w -> Value (91 :: w ++ [93]) (JArr [])
| v_arr t l : Elems t l -> Value (91 :: t ++ [93]) (JArr l)
| v_obj0 w : blanks w -> Value (123 :: w ++ [125]) (JObj [])
| v_obj t m : Members t m -> Value (123 :: t ++ [125]) (JObj m)
with Elems : bytes -> list json -> Prop :=
| e_one a t v b : blanks a -> Value t v -> blanks b -> Elems (a ++ t ++ b) [v]
| e_cons a t v b ts l : blanks a -> Value t v -> blanks b -> Elems ts l -> Elems (a ++ t ++ b ++ 44 :: ts) (v :: l)
with Members : bytes -> list (bytes * json) -> Prop :=
| m_one a kt k b c t v d : blanks a -> Chars kt k -> blanks b -> blanks c -> Value t v -> blanks d ->
    Members (a ++ 34 :: kt ++ 34 :: b ++ 58 :: c ++ t ++ d) [(k, v)]
| m_cons a kt k b c t v d ts m : blanks a -> Chars kt k -> blanks b -> blanks c -> Value t v -> blanks d -> Members ts m ->
    Members (a ++ 34 :: kt ++ 34 :: b ++ 58 :: c ++ t ++ d ++ 44 :: ts) ((k, v) :: m).

(** How deep brackets are nested. *)
Fixpoint nesting (v : json) : Z :=
  match v with
  | JArr l => 1 + fold_right Z.max 0 (map nesting l)
  | JObj m => 1 + fold_right Z.max 0 (map (fun kv => match kv with (_, v) => nesting v end) m)
  | _ => 0
  end.

(** A byte string with every byte that is not part of UTF-8 replaced by U+FFFD. *)
Inductive Repair : bytes -> bytes -> Prop :=
| rp_nil : Repair [] []
| rp_ascii b s t : 0 <= b < 128 -> Repair s t -> Repair (b :: s) (b :: t)
| rp_rune r s t : scalar r -> 128 <= r -> Repair s t -> Repair (encodeRune r ++ s) (encodeRune r ++ t)
| rp_bad b s t : 128 <= b -> ~ runeAhead (b :: s) -> Repair s t -> Repair (b :: s) (encodeRune 65533 ++ t).

(** UTF-8 text. *)
Inductive Utf8Text : bytes -> Prop :=
| ut_nil : Utf8Text []
| ut_ascii b s : 0 <= b < 128 -> Utf8Text s -> Utf8Text (b :: s)
| ut_rune r s : scalar r -> 128 <= r -> Utf8Text s -> Utf8Text (encodeRune r ++ s).

(** The same document but for the repair of its strings. *)
Inductive Repaired : json -> json -> Prop :=
| rj_null : Repaired JNull JNull
| rj_bool b : Repaired (JBool b) (JBool b)
| rj_num t : Repaired (JNum t) (JNum t)
| rj_str s t : Repair s t -> Repaired (JStr s) (JStr t)
| rj_arr l l' : Forall2 Repaired l l' -> Repaired (JArr l) (JArr l')
| rj_obj m m' : Forall2 (fun a b => Repair (fst a) (fst b) /\ Repaired (snd a) (snd b)) m m' -> Repaired (JObj m) (JObj m').

(** Documents that can be written: numbers are numbers, strings are bytes. *)
Inductive Writable : json -> Prop :=
| wr_null : Writable JNull
| wr_bool b : Writable (JBool b)
| wr_num t : NumberText t -> Writable (JNum t)
| wr_str s : Forall (fun b => 0 <= b < 256) s -> Writable (JStr s)
| wr_arr l : Forall Writable l -> Writable (JArr l)
| wr_obj m : Forall (fun a => Forall (fun b => 0 <= b < 256) (fst a) /\ Writable (snd a)) m -> Writable (JObj m).
