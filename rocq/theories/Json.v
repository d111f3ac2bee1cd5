(** encoding/json as the commands use it: json.MarshalIndent on a tree
    (cmd/cddlc/commands.go:89), json.NewEncoder with SetIndent on the default configuration
    (cmd/cddlc/commands/init.go:41-46), json.NewDecoder(fh).Decode on a configuration file
    (config/config.go:104). *)
From Coq Require Import String.
From Verif Require Import Base Utf8 Token Ast Cli.
Open Scope string_scope.
Open Scope list_scope.
Open Scope Z_scope.

(** A JSON document. Numbers are kept as text, strings as the bytes they denote. *)
Inductive json : Type :=
| JNull
| JBool (b : bool)
| JNum (t : bytes)
| JStr (s : bytes)
| JArr (l : list json)
| JObj (m : list (bytes * json)).

(** Behaviour of encoding/json outside the model: the text of a float64 ([None] for
    infinities and NaN), whether \b and \f have short escapes (since go 1.22), whether a
    number is in the range of float64, and the effect of a second array for the same slice
    (it is decoded into the elements of the first). *)
Record JsonExt : Type := mkJson {
  jFloat : Z -> option bytes;
  jShort : bool;
  jInRange : bytes -> bool;
  jSecond : json -> option config
}.

(** ** Encoding *)

Definition hexDigit (n : Z) : Z := if n <? 10 then 48 + n else 87 + n.

(** appendString of encoding/json, one byte below 128 (HTML characters are escaped). *)
Definition escAscii (short : bool) (b : Z) : bytes :=
  if b =? 34 then [92; 34]
  else if b =? 92 then [92; 92]
  else if b =? 10 then [92; 110]
  else if b =? 13 then [92; 114]
  else if b =? 9 then [92; 116]
  else if short && (b =? 8) then [92; 98]
  else if short && (b =? 12) then [92; 102]
  else if (b <? 32) || (b =? 60) || (b =? 62) || (b =? 38) then str "\u00" ++ [hexDigit (b / 16); hexDigit (b mod 16)]
  else [b].

(** appendString: the next [k] bytes belong to a rune already looked at. *)
Fixpoint encFrom (short : bool) (k : nat) (keep : bool) (s : bytes) : bytes :=
  match s with
  | [] => []
  | b :: r =>
    match k with
    | S k' => (if keep then [b] else []) ++ encFrom short k' keep r
    | O =>
      if b <? 128 then escAscii short b ++ encFrom short O true r
      else
        let '(c, w) := decodeRune s in
        if (c =? RuneError) && (w =? 1) then str "\u" ++ str "fffd" ++ encFrom short O true r
        else if (c =? 8232) || (c =? 8233) then str "\u202" ++ [hexDigit (c mod 16)] ++ encFrom short (Z.to_nat (w - 1)) false r
        else b :: encFrom short (Z.to_nat (w - 1)) true r
    end
  end.

Definition encStr (short : bool) (s : bytes) : bytes := 34 :: encFrom short O true s ++ [34].

Fixpoint commas (l : list bytes) : bytes :=
  match l with
  | [] => []
  | [a] => a
  | a :: r => a ++ 44 :: commas r
  end.

(** json.Marshal: no white space. *)
Fixpoint compact (short : bool) (v : json) : bytes :=
  match v with
  | JNull => str "null"
  | JBool b => if b then str "true" else str "false"
  | JNum t => t
  | JStr s => encStr short s
  | JArr l => 91 :: commas (map (compact short) l) ++ [93]
  | JObj m => 123 :: commas (map (fun kv => match kv with (k, v) => encStr short k ++ 58 :: compact short v end) m) ++ [125]
  end.

Definition newline (d : nat) : bytes := 10 :: repeat 9 d.

(** json.Indent with no prefix and a tab, on text without white space: [q] tells whether the
    last byte was inside a string, [e] whether it was a backslash there, [need] whether a
    bracket was just opened, [d] is the depth. *)
Fixpoint indentFrom (q e need : bool) (d : nat) (s : bytes) : bytes :=
  match s with
  | [] => []
  | c :: r =>
    if q then
      c :: (if e then indentFrom true false need d r
            else if c =? 92 then indentFrom true true need d r
            else if c =? 34 then indentFrom false false need d r
            else indentFrom true false need d r)
    else if (c =? 125) || (c =? 93) then
      if need then c :: indentFrom false false false d r
      else newline (pred d) ++ c :: indentFrom false false false (pred d) r
    else
      let d := if need then S d else d in
      (if need then newline d else []) ++
      (if (c =? 123) || (c =? 91) then c :: indentFrom false false true d r
       else if c =? 44 then c :: newline d ++ indentFrom false false false d r
       else if c =? 58 then c :: 32 :: indentFrom false false false d r
       else c :: indentFrom (c =? 34) false false d r)
  end.

Definition indent (s : bytes) : bytes := indentFrom false false false 0 s.

(** *** Trees *)

(** A struct; a field that cannot be encoded makes the whole fail. *)
Fixpoint fields (l : list (string * option json)) : option (list (bytes * json)) :=
  match l with
  | [] => Some []
  | (k, Some v) :: r => match fields r with Some m => Some ((str k, v) :: m) | None => None end
  | (_, None) :: _ => None
  end.

Definition struct (l : list (string * option json)) : option json :=
  match fields l with Some m => Some (JObj m) | None => None end.

Fixpoint elems (l : list (option json)) : option (list json) :=
  match l with
  | [] => Some []
  | Some v :: r => match elems r with Some m => Some (v :: m) | None => None end
  | None :: _ => None
  end.

(** A slice that was never assigned is nil, hence null; every other one has elements,
    except [CDDL.Rules] (parser.go:80). *)
Definition slice (l : list (option json)) : option json :=
  match l with
  | [] => Some JNull
  | _ => match elems l with Some m => Some (JArr m) | None => None end
  end.

Definition jInt (n : Z) : option json := Some (JNum (fmtD n)).
Definition jText (s : bytes) : option json := Some (JStr s).
(** token/token.go:7: a token is an int without MarshalText. *)
Definition jTok (t : token) : option json := jInt (tokIdx t).
(** token/position.go:7-12 *)
Definition jPos (p : position) : option json :=
  struct [("Filename", jText (pFile p)); ("Offset", jInt (pOffset p)); ("Line", jInt (pLine p)); ("Column", jInt (pColumn p))].
(** token/position.go:44-46 *)
Definition jRange (r : positionRange) : option json := struct [("Start", jPos (rStart r)); ("End", jPos (rEnd r))].
(** ast/identifier.go:10-13 *)
Definition jIdent (i : ident) : option json := struct [("Pos", jPos (iPos i)); ("Name", jText (iName i))].
(** ast/comment.go:8-11 *)
Definition jComment (c : comment) : option json := struct [("Pos", jPos (cPos c)); ("Text", jText (cText c))].
(** ast/uint_literal.go:10-14 *)
Definition jUint (u : uintLit) : option json := struct [("Pos", jPos (uPos u)); ("Token", jTok (uTok u)); ("Literal", jInt (uVal u))].
(** A pointer field. *)
Definition jPtr {A} (f : A -> option json) (o : option A) : option json := match o with Some a => f a | None => Some JNull end.

(** The encoding of a node by reflection: exported fields in the order of the struct
    declarations of ast/*.go (cited in Ast.v); nil interfaces and nil pointers are null. *)
Fixpoint treeJson (J : JsonExt) (n : node) : option json :=
  match n with
  | NNil => Some JNull
  | NTypedNil _ => Some JNull
  | NIdentifier i => jIdent i
  | NComment c => jComment c
  | NCommentGroup l => struct [("List", slice (map jComment l))]
  | NBooleanType p t => struct [("Pos", jPos p); ("Token", jTok t)]
  | NBooleanLiteral r b => struct [("Range", jRange r); ("Bool", Some (JBool b))]
  | NTstrType p t => struct [("Pos", jPos p); ("Token", jTok t)]
  | NTextLiteral p t s => struct [("Pos", jPos p); ("Token", jTok t); ("Literal", jText s)]
  | NFloatType p t base => struct [("Pos", jPos p); ("Token", jTok t); ("Base", jInt base)]
  | NFloatLiteral r t bits => struct [("Range", jRange r); ("Token", jTok t); ("Literal", match jFloat J bits with Some x => Some (JNum x) | None => None end)]
  | NUintType r t => struct [("Range", jRange r); ("Token", jTok t)]
  | NUintLiteral u => jUint u
  | NIntegerType p t => struct [("Pos", jPos p); ("Token", jTok t)]
  | NNegativeIntegerType p t => struct [("Pos", jPos p); ("Token", jTok t)]
  | NIntegerLiteral p t v => struct [("Pos", jPos p); ("Token", jTok t); ("Literal", jInt v)]
  | NBstrType p t => struct [("Pos", jPos p); ("Token", jTok t)]
  | NBytesType p t => struct [("Pos", jPos p); ("Token", jTok t)]
  | NNullType p t => struct [("Pos", jPos p); ("Token", jTok t)]
  | NEntry p name value tc => struct [("Pos", jPos p); ("Name", jIdent name); ("Value", treeJson J value); ("TrailingComment", jPtr jComment tc)]
  | NTypeChoice p t a b => struct [("Pos", jPos p); ("Token", jTok t); ("First", treeJson J a); ("Second", treeJson J b)]
  | NGroupChoice p t a b => struct [("Pos", jPos p); ("Token", jTok t); ("First", treeJson J a); ("Second", treeJson J b)]
  | NUnwrap p t item => struct [("Pos", jPos p); ("Token", jTok t); ("Item", treeJson J item)]
  | NTag p t major number item =>
      struct [("Pos", jPos p); ("Token", jTok t); ("Major", jPtr jUint major); ("TagNumber", jPtr jUint number); ("Item", treeJson J item)]
  | NEnumeration p t value => struct [("Pos", jPos p); ("Token", jTok t); ("Value", treeJson J value)]
  | NOptional p t item => struct [("Pos", jPos p); ("Token", jTok t); ("Item", treeJson J item)]
  | NNMOccurrence p t n m item =>
      struct [("Pos", jPos p); ("Token", jTok t); ("N", jPtr jUint n); ("M", jPtr jUint m); ("Item", treeJson J item)]
  | NSizeOp p t size typ => struct [("Pos", jPos p); ("Token", jTok t); ("Size", treeJson J size); ("Type", treeJson J typ)]
  | NRegexp p t base regex =>
      struct [("Pos", jPos p); ("Token", jTok t);
              ("Base", jPtr (fun b => struct [("Pos", jPos (fst b)); ("Token", jTok (snd b))]) base); ("Regex", treeJson J regex)]
  | NBits p t base c => struct [("Pos", jPos p); ("Token", jTok t); ("Base", treeJson J base); ("Contstraint", treeJson J c)]
  | NComparator p t op l r =>
      struct [("Pos", jPos p); ("Token", jTok t); ("Operator", jText op); ("Left", treeJson J l); ("Right", treeJson J r)]
  | NRange p t a b => struct [("Pos", jPos p); ("Token", jTok t); ("From", treeJson J a); ("To", treeJson J b)]
  | NGroup p l => struct [("Pos", jPos p); ("Entries", slice (map (treeJson J) l))]
  | NMap p t l => struct [("Pos", jPos p); ("Token", jTok t); ("Rules", slice (map (treeJson J) l))]
  | NArray p l => struct [("Pos", jPos p); ("Rules", slice (map (treeJson J) l))]
  | NBadNode p t base e => struct [("Pos", jPos p); ("Token", jTok t); ("Base", treeJson J base); ("EndPos", jPos e)]
  | NRule p name value tc => struct [("Pos", jPos p); ("Name", jIdent name); ("Value", treeJson J value); ("TrailingComment", jPtr jComment tc)]
  | NCDDL p l => struct [("Pos", jPos p); ("Rules", match elems (map (treeJson J) l) with Some m => Some (JArr m) | None => None end)]
  end.

(** maxNestingDepth of encoding/json, brackets open at once: the scanner that json.Indent
    runs gives up beyond it, as does the decoder. *)
Definition maxNesting : Z := 10000.
Fixpoint depth (v : json) : Z :=
  match v with
  | JArr l => 1 + fold_right Z.max 0 (map depth l)
  | JObj m => 1 + fold_right Z.max 0 (map (fun kv => match kv with (_, v) => depth v end) m)
  | _ => 0
  end.

(** commands.go:89, json.MarshalIndent(ast, "", "\t"); the tree may be a nil *ast.CDDL. *)
Definition rootJson (J : JsonExt) (root : option node) : option json :=
  match root with Some n => treeJson J n | None => Some JNull end.
Definition marshalTree (J : JsonExt) (root : option node) : option bytes :=
  match rootJson J root with
  | Some v => if depth v <=? maxNesting then Some (indent (compact (jShort J) v)) else None
  | None => None
  end.

(** *** Configurations *)

(** config/config.go:50-57, 60-66 with the field tags, for a configuration without plugins
    and options such as NewDefaultConfig's (config.go:78-86). *)
Definition buildJson (b : build) : json :=
  JObj [(str "package", JStr (bPackage b)); (str "src", JStr (bSource b)); (str "output", JStr (bOut b))].
Definition configJson (c : config) : json :=
  JObj [(str "version", JStr (cfVersion c)); (str "plugins", JArr []);
        (str "builds", JArr (map (fun b => match b with Some b => buildJson b | None => JNull end) (cfBuilds c)));
        (str "options", JNull)].

(** init.go:41-46, Encoder.Encode: the indented text and a newline. *)
Definition encodeConfig (short : bool) (c : config) : bytes := indent (compact short (configJson c)) ++ [10].

(** ** Decoding *)

(** encoding/json's isSpace. *)
Definition isWs (b : Z) : bool := (b =? 32) || (b =? 9) || (b =? 10) || (b =? 13).

Fixpoint skipWs (s : bytes) : bytes :=
  match s with
  | b :: r => if isWs b then skipWs r else s
  | [] => []
  end.

Definition hexVal (b : Z) : option Z :=
  if inRangeB 48 57 b then Some (b - 48)
  else if inRangeB 97 102 b then Some (b - 87)
  else if inRangeB 65 70 b then Some (b - 55)
  else None.

(** getu4 *)
Definition hex4 (a b c d : Z) : option Z :=
  match hexVal a, hexVal b, hexVal c, hexVal d with
  | Some x, Some y, Some z, Some w => Some (((x * 16 + y) * 16 + z) * 16 + w)
  | _, _, _, _ => None
  end.

(** utf16.IsSurrogate and utf16.DecodeRune *)
Definition isSurrogate (u : Z) : bool := inRangeB 55296 57343 u.
Definition surrogates (u v : Z) : option Z :=
  if inRangeB 55296 56319 u && inRangeB 56320 57343 v then Some ((u - 55296) * 1024 + (v - 56320) + 65536) else None.

(** The character of a two-byte escape (scanner's stateInStringEsc and unquote). *)
Definition shortEsc (e : Z) : option Z :=
  if (e =? 34) || (e =? 92) || (e =? 47) then Some e
  else if e =? 98 then Some 8
  else if e =? 102 then Some 12
  else if e =? 110 then Some 10
  else if e =? 114 then Some 13
  else if e =? 116 then Some 9
  else None.

Definition prepend (p : bytes) (x : option (bytes * bytes)) : option (bytes * bytes) :=
  match x with Some (v, r) => Some (p ++ v, r) | None => None end.

(** A string after its opening quote: what it denotes and what follows the closing quote.
    The scanner's states for strings and [unquote] in one; [k] bytes belong to a rune
    already looked at. *)
Fixpoint chars (k : nat) (s : bytes) : option (bytes * bytes) :=
  match s with
  | [] => None
  | b :: r =>
    match k with
    | S k' => prepend [b] (chars k' r)
    | O =>
      if b =? 34 then Some ([], r)
      else if b <? 32 then None
      else if b =? 92 then
        match r with
        | [] => None
        | e :: r1 =>
          if e =? 117 then
            match r1 with
            | a :: b :: c :: d :: r2 =>
              match hex4 a b c d with
              | None => None
              | Some u =>
                if isSurrogate u then
                  match r2 with
                  | x :: y :: a' :: b' :: c' :: d' :: r3 =>
                    match (if (x =? 92) && (y =? 117) then match hex4 a' b' c' d' with Some v => surrogates u v | None => None end else None) with
                    | Some c => prepend (encodeRune c) (chars O r3)
                    | None => prepend (encodeRune RuneError) (chars O r2)
                    end
                  | _ => prepend (encodeRune RuneError) (chars O r2)
                  end
                else prepend (encodeRune u) (chars O r2)
              end
            | _ => None
            end
          else match shortEsc e with Some c => prepend [c] (chars O r1) | None => None end
        end
      else if b <? 128 then prepend [b] (chars O r)
      else
        let '(c, w) := decodeRune s in
        if (c =? RuneError) && (w =? 1) then prepend (encodeRune RuneError) (chars O r)
        else prepend [b] (chars (Z.to_nat (w - 1)) r)
    end
  end.

Definition isDec (b : Z) : bool := inRangeB 48 57 b.

Fixpoint decDigits (s : bytes) : bytes * bytes :=
  match s with
  | b :: r => if isDec b then let '(d, r') := decDigits r in (b :: d, r') else ([], s)
  | [] => ([], [])
  end.

(** The scanner's states for numbers, after the sign: the integer part, the fraction and the
    exponent. *)
Definition intPart (s : bytes) : option (bytes * bytes) :=
  match s with
  | b :: r => if b =? 48 then Some ([48], r) else if isDec b then Some (decDigits s) else None
  | [] => None
  end.

Definition fracPart (s : bytes) : option (bytes * bytes) :=
  match s with
  | b :: r => if b =? 46 then match decDigits r with ([], _) => None | (d, r') => Some (46 :: d, r') end else Some ([], s)
  | [] => Some ([], [])
  end.

Definition expSign (s : bytes) : bytes * bytes :=
  match s with c :: r => if (c =? 43) || (c =? 45) then ([c], r) else ([], s) | [] => ([], []) end.

Definition expPart (s : bytes) : option (bytes * bytes) :=
  match s with
  | b :: r =>
    if (b =? 101) || (b =? 69) then
      let '(sg, r1) := expSign r in
      match decDigits r1 with ([], _) => None | (d, r') => Some (b :: sg ++ d, r') end
    else Some ([], s)
  | [] => Some ([], [])
  end.

Definition minus (s : bytes) : bytes * bytes :=
  match s with b :: r => if b =? 45 then ([45], r) else ([], s) | [] => ([], []) end.

Definition number (s : bytes) : option (bytes * bytes) :=
  let '(sg, s1) := minus s in
  match intPart s1 with
  | None => None
  | Some (i, s2) =>
    match fracPart s2 with
    | None => None
    | Some (f, s3) =>
      match expPart s3 with
      | None => None
      | Some (e, s4) => Some (sg ++ i ++ f ++ e, s4)
      end
    end
  end.

(** The rest after a given word. *)
Fixpoint word (w s : bytes) : option bytes :=
  match w, s with
  | [], _ => Some s
  | a :: w', b :: s' => if a =? b then word w' s' else None
  | _, _ => None
  end.

(** The scanner and the decoder's walk over the text it accepted, in one recursive descent:
    a value, the elements of an array after its bracket, the members of an object after its
    brace. [n] is fuel, [d] the number of brackets open. *)
Fixpoint value (n : nat) (d : Z) (s : bytes) : option (json * bytes) :=
  match n with
  | O => None
  | S n' =>
    match skipWs s with
    | [] => None
    | b :: r =>
      if b =? 123 then
        if maxNesting <=? d then None
        else match skipWs r with
             | c :: r' => if c =? 125 then Some (JObj [], r')
                          else match membersOf n' (d + 1) r with Some (m, r2) => Some (JObj m, r2) | None => None end
             | [] => None
             end
      else if b =? 91 then
        if maxNesting <=? d then None
        else match skipWs r with
             | c :: r' => if c =? 93 then Some (JArr [], r')
                          else match elemsOf n' (d + 1) r with Some (l, r2) => Some (JArr l, r2) | None => None end
             | [] => None
             end
      else if b =? 34 then match chars O r with Some (v, r') => Some (JStr v, r') | None => None end
      else if b =? 116 then match word (str "rue") r with Some r' => Some (JBool true, r') | None => None end
      else if b =? 102 then match word (str "alse") r with Some r' => Some (JBool false, r') | None => None end
      else if b =? 110 then match word (str "ull") r with Some r' => Some (JNull, r') | None => None end
      else match number (b :: r) with Some (t, r') => Some (JNum t, r') | None => None end
    end
  end
with elemsOf (n : nat) (d : Z) (s : bytes) : option (list json * bytes) :=
  match n with
  | O => None
  | S n' =>
    match value n' d s with
    | None => None
    | Some (v, r) =>
      match skipWs r with
      | c :: r1 =>
        if c =? 44 then match elemsOf n' d r1 with Some (l, r2) => Some (v :: l, r2) | None => None end
        else if c =? 93 then Some ([v], r1)
        else None
      | [] => None
      end
    end
  end
with membersOf (n : nat) (d : Z) (s : bytes) : option (list (bytes * json) * bytes) :=
  match n with
  | O => None
  | S n' =>
    match skipWs s with
    | q :: r =>
      if q =? 34 then
        match chars O r with
        | None => None
        | Some (k, r1) =>
          match skipWs r1 with
          | c :: r2 =>
            if c =? 58 then
              match value n' d r2 with
              | None => None
              | Some (v, r3) =>
                match skipWs r3 with
                | c :: r4 =>
                  if c =? 44 then match membersOf n' d r4 with Some (m, r5) => Some ((k, v) :: m, r5) | None => None end
                  else if c =? 125 then Some ([(k, v)], r4)
                  else None
                | [] => None
                end
              end
            else None
          | [] => None
          end
        end
      else None
    | [] => None
    end
  end.

(** Decoder.Decode reads one value and leaves the rest of the file alone. *)
Definition firstValue (s : bytes) : option json :=
  match value (2 * length s + 2) 0 s with Some (v, _) => Some v | None => None end.

(** Matching of keys: encoding/json compares the names ignoring case by Unicode simple
    folding; for the ASCII names used here the only other runes that match are U+017F for s
    and U+212A for k. *)
Fixpoint foldKey (k : bytes) : bytes :=
  match k with
  | [] => []
  | b :: r =>
    let other := (if inRangeB 65 90 b then b + 32 else b) :: foldKey r in
    if b =? 197 then match r with c :: r1 => if c =? 191 then 115 :: foldKey r1 else other | [] => other end
    else if b =? 226 then match r with c :: c2 :: r1 => if (c =? 132) && (c2 =? 170) then 107 :: foldKey r1 else other | _ => other end
    else other
  end.
Definition keyIs (name : string) (k : bytes) : bool := beq (foldKey k) (str name).

(** Decoding into a string field: null leaves it alone, anything but a string is an error. *)
Definition intoString (cur : bytes) (v : json) : option bytes :=
  match v with
  | JNull => Some cur
  | JStr s => Some s
  | _ => None
  end.

(** Decoding into a BuildConfig (config.go:50-57), member after member. *)
Fixpoint intoBuild (b : build) (m : list (bytes * json)) : option build :=
  match m with
  | [] => Some b
  | (k, v) :: r =>
    if keyIs "package" k then match intoString (bPackage b) v with Some s => intoBuild (mkBuild s (bSource b) (bOut b)) r | None => None end
    else if keyIs "src" k then match intoString (bSource b) v with Some s => intoBuild (mkBuild (bPackage b) s (bOut b)) r | None => None end
    else if keyIs "output" k then match intoString (bOut b) v with Some s => intoBuild (mkBuild (bPackage b) (bSource b) s) r | None => None end
    else intoBuild b r
  end.

(** An element of Builds, a new pointer. *)
Definition intoBuildPtr (v : json) : option (option build) :=
  match v with
  | JNull => Some None
  | JObj m => match intoBuild (mkBuild [] [] []) m with Some b => Some (Some b) | None => None end
  | _ => None
  end.

Fixpoint intoBuilds (l : list json) : option (list (option build)) :=
  match l with
  | [] => Some []
  | v :: r => match intoBuildPtr v, intoBuilds r with Some b, Some bs => Some (b :: bs) | _, _ => None end
  end.

(** Whether a value can be decoded into a struct with one string field (PluginRemote and
    PluginLocal, config.go:21-27), into a Plugin (config.go:42-46), into Plugins, and into
    Options (config.go:65): the values themselves are never used. *)
Definition fitsStr (v : json) : bool := match v with JNull | JStr _ => true | _ => false end.
Definition fitsOne (name : string) (v : json) : bool :=
  match v with
  | JNull => true
  | JObj m => forallb (fun kv => negb (keyIs name (fst kv)) || fitsStr (snd kv)) m
  | _ => false
  end.
Definition fitsPlugin (v : json) : bool :=
  match v with
  | JNull => true
  | JObj m => forallb (fun kv => if keyIs "name" (fst kv) then fitsStr (snd kv)
                                 else if keyIs "remote" (fst kv) then fitsOne "url" (snd kv)
                                 else if keyIs "local" (fst kv) then fitsOne "path" (snd kv)
                                 else true) m
  | _ => false
  end.
Definition fitsPlugins (v : json) : bool := match v with JNull => true | JArr l => forallb fitsPlugin l | _ => false end.
Fixpoint fitsAny (J : JsonExt) (v : json) : bool :=
  match v with
  | JNum t => jInRange J t
  | JArr l => forallb (fitsAny J) l
  | JObj m => forallb (fun kv => match kv with (_, v) => fitsAny J v end) m
  | _ => true
  end.
Definition fitsOptions (J : JsonExt) (v : json) : bool := match v with JNull => true | JObj _ => fitsAny J v | _ => false end.

(** Decoding into a Config (config.go:60-66), member after member. An error does not stop
    the decoder but makes Decode fail in the end. *)
Fixpoint intoConfig (J : JsonExt) (c : config) (m : list (bytes * json)) : option config :=
  match m with
  | [] => Some c
  | (k, v) :: r =>
    if keyIs "version" k then match intoString (cfVersion c) v with Some s => intoConfig J (mkConfig s (cfBuilds c)) r | None => None end
    else if keyIs "plugins" k then if fitsPlugins v then intoConfig J c r else None
    else if keyIs "builds" k then
      match v with
      | JNull => intoConfig J (mkConfig (cfVersion c) []) r
      | JArr l => match intoBuilds l with Some bs => intoConfig J (mkConfig (cfVersion c) bs) r | None => None end
      | _ => None
      end
    else if keyIs "options" k then if fitsOptions J v then intoConfig J c r else None
    else intoConfig J c r
  end.

(** Whether an array is decoded into Builds while it has elements already. *)
Fixpoint second (some : bool) (m : list (bytes * json)) : bool :=
  match m with
  | [] => false
  | (k, v) :: r =>
    if keyIs "builds" k then
      match v with
      | JNull => second false r
      | JArr l => some || second (match l with [] => false | _ => true end) r
      | _ => second some r
      end
    else second some r
  end.

(** config.go:102-104: Decode into an empty Config. *)
Definition decodeConfig (J : JsonExt) (s : bytes) : option config :=
  match firstValue s with
  | None => None
  | Some JNull => Some (mkConfig [] [])
  | Some (JObj m) => if second false m then jSecond J (JObj m) else intoConfig J (mkConfig [] []) m
  | Some _ => None
  end.

(** The commands with this encoding/json. *)
Definition withJson (J : JsonExt) (C : CliExt) : CliExt :=
  mkCli (cGen C) (cFormat C) (decodeConfig J) (cYaml C) (cGlob C) (cFmtV C) (cQuote C) (marshalTree J) (cArgs C).
