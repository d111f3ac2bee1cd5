(** A complete lexical grammar: what Scan returns on any decodable source, not only on
    well-formed ones. Nothing is taken from lexer/lexer.go but the record [tokInfo]. *)
From Coq Require Import String.
From Verif Require Import Base Utf8 Token Ext LexSpec.
From Verif Require Import Lexer LexSpec2.
Open Scope string_scope.
Open Scope list_scope.
Open Scope Z_scope.

(** [s] begins with the rune [r]. *)
Definition startsWith (s : bytes) (r : Z) : Prop := s <> [] /\ exists w, decodeRune s = (r, w).

(** [a] stops before [rest]: no byte of class [P] follows. *)
Definition stops (P : Z -> Prop) (rest : bytes) : Prop := rest = [] \/ ~ P (hd 0 rest).

(** A number goes on with any digit rune, and with a dot before an ASCII digit. *)
Definition goesOn (X : Ext) (s : bytes) : Prop :=
  (exists r, startsWith s r /\ uniIsDigit X r = true) \/ (exists d t, s = 46 :: d :: t /\ digit d).

(** [Num X text rest]: read before [rest], a number takes exactly [text]. *)
Inductive Num (X : Ext) : bytes -> bytes -> Prop :=
| Nm_stop : forall rest, ~ goesOn X rest -> Num X [] rest
| Nm_digit : forall r cs t rest, cs <> [] -> decodeRune (cs ++ t ++ rest) = (r, Z.of_nat (length cs)) ->
    uniIsDigit X r = true -> Num X t rest -> Num X (cs ++ t) rest
| Nm_dot : forall t rest d u, t ++ rest = d :: u -> digit d -> Num X t rest -> Num X (46 :: t) rest.

(** A single dot somewhere after the first digit, or directly after the number. *)
Definition dotted (text rest : bytes) : Prop :=
  exists a b t, a <> [] /\ text = a ++ b /\ b ++ rest = 46 :: t /\ hd 0 t <> 46.

(** The letters after a zero that announce a base, and the digits of that base. *)
Inductive Base : Z -> (Z -> Prop) -> Prop :=
| Bs_hex : Base 120 hexDigit
| Bs_bin : Base 98 binDigit
| Bs_oct : Base 111 octDigit.

(** [w] is the longest punctuation [w ++ rest] begins with. *)
Definition longest (w rest : bytes) : Prop :=
  forall w' tk' u, In (w', tk') punctTable -> w ++ rest = w' ++ u -> (length w' <= length w)%nat.

(** [Lexed X tk text lit rest]: the source from here on is [text ++ rest], the next
    token is [text], of kind [tk] and with literal [lit]. *)
Inductive Lexed (X : Ext) : token -> bytes -> bytes -> bytes -> Prop :=
| Lx_eof : Lexed X EOF [] [] []
| Lx_word : forall c w tk rest, identStart c -> Forall identChar w -> stops identChar rest -> kindOf (c :: w) tk ->
    Lexed X tk (c :: w) (c :: w) rest
| Lx_base : forall b P w rest, Base b P -> Forall P w -> stops P rest ->
    Lexed X INT (48 :: b :: w) (48 :: b :: w) rest
| Lx_int : forall c w rest, digit c -> Num X (c :: w) rest -> (c = 48 -> forall P, ~ Base (hd 0 (w ++ rest)) P) ->
    ~ dotted (c :: w) rest -> Lexed X INT (c :: w) (c :: w) rest
| Lx_float : forall c w rest, digit c -> Num X (c :: w) rest -> (c = 48 -> forall P, ~ Base (hd 0 (w ++ rest)) P) ->
    dotted (c :: w) rest -> Lexed X FLOAT (c :: w) (c :: w) rest
| Lx_punct : forall w tk rest, In (w, tk) punctTable -> longest w rest ->
    (w = [46] -> forall r, startsWith rest r -> uniIsLetter X r = false) -> Lexed X tk w w rest
| Lx_dotted : forall w tk r rest, startsWith (w ++ rest) r -> uniIsLetter X r = true -> Forall letter w -> stops letter rest ->
    kindOf (46 :: w) tk -> Lexed X tk (46 :: w) (46 :: w) rest
| Lx_comment : forall w rest, ~ In 10 w -> rest = [] \/ hd 0 rest = 10 -> Lexed X COMMENT (59 :: w) w rest
| Lx_text : forall w rest, ~ In 34 w -> ~ In 10 w -> Lexed X TEXT_LITERAL (34 :: w ++ [34]) w rest
| Lx_open : forall w b rest, ~ In 34 (w ++ [b]) -> ~ In 10 (w ++ [b]) -> rest = [] \/ hd 0 rest = 10 ->
    Lexed X TEXT_LITERAL (34 :: w ++ [b]) w rest
| Lx_illegal : forall cs r rest c t, cs = c :: t -> decodeRune (cs ++ rest) = (r, Z.of_nat (length cs)) ->
    ~ identStart c -> ~ digit c -> ~ blank c -> c <> 34 -> c <> 59 -> (forall w tk, ~ In (c :: w, tk) punctTable) ->
    Lexed X ILLEGAL cs cs rest.

(** [TokensOf X s k ts]: from byte [k] on, [s] is the tokens [ts], with blanks between
    them; the last one, and only that, is EOF. *)
Inductive TokensOf (X : Ext) (s : bytes) : nat -> list tokInfo -> Prop :=
| To_eof : forall k g, skipn k s = g -> allBlank g -> TokensOf X s k [mkTok EOF (posAt s (k + length g)) []]
| To_cons : forall k g tk text lit rest ts, skipn k s = g ++ text ++ rest -> allBlank g -> tk <> EOF ->
    Lexed X tk text lit rest -> TokensOf X s (k + length g + length text) ts ->
    TokensOf X s k (mkTok tk (posAt s (k + length g)) lit :: ts).
