(** The repository's own tests, run on the model.

    These examples are not properties: they check the model against the
    expectations written down in the repository's test files, which are the only
    statements about the code that do not come from reading it.  Each example
    names the test it transcribes.  [strconv.ParseFloat] is given by a table for
    the literals that occur. *)
From Coq Require Import String.
From Verif Require Import Base Utf8 Token Ext Lexer Ast Env Diag Parser Codegen Props_Codegen.
Open Scope string_scope.
Open Scope list_scope.
Open Scope Z_scope.

(** [strconv.ParseFloat] on the literals of the tests: IEEE-754 bit patterns. *)
Definition testFloat (b : bytes) : option Z :=
  if beq b (str "2.4") then Some 4612586738352862003
  else if beq b (str "0.10") then Some 4591870180066957722
  else if beq b (str "0.0") then Some 0
  else if beq b (str "10.0") then Some 4621819117588971520
  else None.
Definition XT : Ext := mkExt (fun _ => false) (fun _ => false) testFloat.

(** ** lexer/lexer_test.go *)

(** The loop of TestIdentifers and TestNumbers (lexer_test.go:65-81, 117-133):
    every token before EOF must have the kind and the literal of the table. *)
Definition lexesTo (t : token) (s : string) : bool :=
  match scanAll XT (S (length (str s))) (str s) with
  | Ok ts => forallb (fun k => teq (tTok k) EOF ||
                       (teq (tTok k) t && beq (tLit k) (str s))) ts
  | _ => false
  end.

(** TestIdentifers (lexer_test.go:34-82) *)
Example test_identifiers : forallb (lexesTo IDENT)
  ["a"; "ab"; "ab_cd"; "@a"; "$a"; "_a"; "ab.ba"; "ab-ba"; "ab@ba"; "ab-ba@gh.kl8"; "AB"; "AaBb";
   "min..max"; "min...max"] = true.
Proof. vm_compute. reflexivity. Qed.

(** TestNumbers (lexer_test.go:84-135) *)
Example test_numbers : forallb (lexesTo INT)
  ["0"; "00"; "10"; "0b00"; "0b1"; "0b111010010"; "0o0"; "0o1"; "0o4672726"; "0x0"; "0x01";
   "0x0f755b863f"] && forallb (lexesTo FLOAT) ["00.0"; "0.0"; "3.4"; "3.5694298374823"] = true.
Proof. vm_compute. reflexivity. Qed.

(** TestLexerFuzz (lexer_test.go:206-246, 302-343) joins the spellings of random
    tokens of [IDENT, FEATURE) with single spaces and expects every token back at
    its offset.  Here: every sequence of two tokens of the range. *)

(** [genLiteral] (lexer_test.go:206-218) with fixed numbers and a fixed text; the
    spelling and the token expected. *)
Definition genLiteral (t : token) : bytes * token :=
  match t with
  | INT => (str "2147483646", INT)
  | FLOAT | FLOAT16 | FLOAT32 | FLOAT64 => (str "604660268.370947", FLOAT)
  | TEXT_LITERAL => (34 :: str "#$%&'()*+,-./0189:;<=>?@AZ[]^_`az{|}" ++ [34], TEXT_LITERAL)
  | _ => (tokenString t, t)
  end.

(** [genSource] (lexer_test.go:220-246): markers are replaced by CBORSEQ. *)
Definition fuzzTokens : list token :=
  map (fun t => match t with literal_begin | numeric_begin | numeric_end | literal_end | operator_begin
                           | operator_end | control_operators_begin => CBORSEQ | _ => t end)
      (filter (fun t => (tokIdx IDENT <=? tokIdx t) && (tokIdx t <? tokIdx FEATURE)) allTokens).

Fixpoint fuzzSource (l : list token) : bytes :=
  match l with
  | [] => []
  | [t] => fst (genLiteral t)
  | t :: r => fst (genLiteral t) ++ str " " ++ fuzzSource r
  end.

Fixpoint fuzzExpect (off : Z) (l : list token) : list (token * Z * Z * Z * bytes) :=
  match l with
  | [] => []
  | t :: r => let '(lit, k) := genLiteral t in
      (k, off, 1, off + 1, lit) :: fuzzExpect (off + Z.of_nat (length lit) + 1) r
  end.

(** The loop of lexer_test.go:314-328, with its quotes around text literals. *)
Definition fuzzGot (s : bytes) : res (list (token * Z * Z * Z * bytes)) :=
  ts <- scanAll XT (S (length s)) s;;
  Ok (map (fun k => (tTok k, pOffset (tPos k), pLine (tPos k), pColumn (tPos k),
                     if teq (tTok k) TEXT_LITERAL then 34 :: tLit k ++ [34] else tLit k))
          (filter (fun k => negb (teq (tTok k) EOF)) ts)).

Definition fuzzEqb (a b : token * Z * Z * Z * bytes) : bool :=
  let '(t1, o1, l1, c1, s1) := a in let '(t2, o2, l2, c2, s2) := b in
  teq t1 t2 && (o1 =? o2) && (l1 =? l2) && (c1 =? c2) && beq s1 s2.
Fixpoint listEqb {A} (e : A -> A -> bool) (a b : list A) : bool :=
  match a, b with
  | [], [] => true
  | x :: a, y :: b => e x y && listEqb e a b
  | _, _ => false
  end.

Definition fuzzRun (l : list token) : bool :=
  match fuzzGot (fuzzSource l) with Ok got => listEqb fuzzEqb got (fuzzExpect 0 l) | _ => false end.

(** TestLexerFuzz (lexer_test.go:302-343) *)
Example test_lexer_fuzz : forallb (fun a => forallb (fun b => fuzzRun [a; b]) fuzzTokens) fuzzTokens = true.
Proof. vm_compute. reflexivity. Qed.
Example test_lexer_fuzz_all : fuzzRun fuzzTokens = true /\ fuzzRun (rev fuzzTokens) = true.
Proof. vm_compute. split; reflexivity. Qed.

(** ** parser/parser_test.go *)

(** [testWalk] (parser_test.go:19-183): [false] where the test calls Errorf or
    Fatalf.  Where the Go code does nothing on a mismatch of node types or of
    list lengths, this does nothing either. *)
Definition posEqb (a b : position) : bool :=
  beq (pFile a) (pFile b) && (pOffset a =? pOffset b) && (pLine a =? pLine b) && (pColumn a =? pColumn b).


(** [reflect.DeepEqual] on the predefined types (parser_test.go:53-59). *)
Definition typeEqb (a b : node) : bool :=
  match a, b with
  | NBooleanType p t, NBooleanType q u | NBytesType p t, NBytesType q u
  | NNullType p t, NNullType q u | NIntegerType p t, NIntegerType q u
  | NNegativeIntegerType p t, NNegativeIntegerType q u
  | NTstrType p t, NTstrType q u | NBstrType p t, NBstrType q u => posEqb p q && teq t u
  | NFloatType p t b, NFloatType q u c => posEqb p q && teq t u && (b =? c)
  | NUintType r t, NUintType s u =>
      posEqb (rStart r) (rStart s) && posEqb (rEnd r) (rEnd s) && teq t u
  | _, _ => false
  end.

Definition identEqb (a b : ident) : bool := beq (iName a) (iName b).
Definition commentEqb (a b : comment) : bool := beq (cText a) (cText b).

(** [val.Major], [val.TagNumber]: compared when both are present. *)
Definition uintBoth (a b : option uintLit) : bool :=
  match a, b with Some x, Some y => uVal x =? uVal y | _, _ => true end.

(** [reflect.DeepEqual] does not look at the list elements here: lists of equal
    length are walked, others are not. *)
Definition walkLists (f : node -> node -> bool) : list node -> list node -> bool :=
  fix go a b := match a, b with x :: a, y :: b => f x y && go a b | _, _ => true end.

(** A trailing comment in the parsed tree is compared with that of the expected
    one; none of the expected trees has one, and the Go code would dereference a
    nil pointer there, which [false] stands for. *)
Definition walkTrailing (a b : option comment) : bool :=
  match b with
  | None => true
  | Some y => match a with Some x => commentEqb x y | None => false end
  end.

Fixpoint testWalk (valid parsed : node) {struct valid} : bool :=
  match valid with
  | NIdentifier i => match parsed with NIdentifier j => identEqb i j | _ => false end
  | NCDDL _ l => match parsed with
      | NCDDL _ m => if Nat.eqb (length l) (length m) then walkLists testWalk l m else true
      | _ => true end
  | NRule _ i v tc => match parsed with
      | NRule _ j w tc' => identEqb i j && testWalk v w && walkTrailing tc tc'
      | _ => false end
  | NBooleanType _ _ | NBytesType _ _ | NFloatType _ _ _ | NUintType _ _ | NNullType _ _
  | NIntegerType _ _ | NNegativeIntegerType _ _ | NTstrType _ _ | NBstrType _ _ => typeEqb valid parsed
  | NTextLiteral _ _ s => match parsed with NTextLiteral _ _ s' => beq s s' | _ => false end
  | NIntegerLiteral _ _ v => match parsed with NIntegerLiteral _ _ v' => v =? v' | _ => false end
  | NUintLiteral u => match parsed with NUintLiteral u' => uVal u =? uVal u' | _ => false end
  | NFloatLiteral _ _ b => match parsed with NFloatLiteral _ _ b' => b =? b' | _ => false end
  | NRegexp _ _ b r => match parsed with
      | NRegexp _ _ b' r' =>
          match b, b' with
          | Some (p, t), Some (q, u) => posEqb p q && teq t u
          | None, None => true
          | _, _ => false
          end && testWalk r r'
      | _ => false end
  | NComment c => match parsed with NComment d => commentEqb c d | _ => false end
  | NCommentGroup l => match parsed with
      | NCommentGroup m => if Nat.eqb (length l) (length m)
                           then forallb (fun xy => commentEqb (fst xy) (snd xy)) (combine l m) else true
      | _ => true end
  | NTag _ _ a b i => match parsed with
      | NTag _ _ a' b' i' => uintBoth a a' && uintBoth b b' &&
          match i, i' with NNil, _ | _, NNil => true | _, _ => testWalk i i' end
      | _ => true end
  | NArray _ l => match parsed with
      | NArray _ m => if Nat.eqb (length l) (length m) then walkLists testWalk l m else true
      | _ => true end
  | NGroup _ l => match parsed with
      | NGroup _ m => if Nat.eqb (length l) (length m) then walkLists testWalk l m else true
      | _ => true end
  | NTypeChoice _ _ a b => match parsed with
      | NTypeChoice _ _ a' b' => testWalk a a' && testWalk b b'
      | _ => true end
  | NSizeOp _ _ s t => match parsed with
      | NSizeOp _ _ s' t' => testWalk t t' && testWalk s s'
      | _ => true end
  | NRange _ _ a b => match parsed with
      | NRange _ _ a' b' => testWalk a a' && testWalk b b'
      | _ => true end
  | NEntry _ i v tc => match parsed with
      | NEntry _ j w tc' => identEqb i j && testWalk v w && walkTrailing tc tc'
      | _ => false end
  | NEnumeration _ _ v => match parsed with
      | NEnumeration _ _ v' => match v, v' with NNil, _ | _, NNil => true | _, _ => testWalk v v' end
      | _ => true end
  | _ => false
  end.

(** The tests that return quietly on mismatches are also run with a comparison
    that does not: the same node types, the same lengths, everywhere
    [testWalk] looks. *)
Fixpoint strictWalk (valid parsed : node) {struct valid} : bool :=
  match valid with
  | NCDDL _ l => match parsed with
      | NCDDL _ m => Nat.eqb (length l) (length m) && walkLists strictWalk l m
      | _ => false end
  | NRule _ i v _ => match parsed with
      | NRule _ j w None => identEqb i j && strictWalk v w
      | _ => false end
  | NCommentGroup l => match parsed with
      | NCommentGroup m => Nat.eqb (length l) (length m) &&
                           forallb (fun xy => commentEqb (fst xy) (snd xy)) (combine l m)
      | _ => false end
  | NTag _ _ a b i => match parsed with
      | NTag _ _ a' b' i' =>
          match a, a' with Some x, Some y => uVal x =? uVal y | None, None => true | _, _ => false end &&
          match b, b' with Some x, Some y => uVal x =? uVal y | None, None => true | _, _ => false end &&
          match i, i' with NNil, NNil => true | NNil, _ | _, NNil => false | _, _ => strictWalk i i' end
      | _ => false end
  | NArray _ l => match parsed with
      | NArray _ m => Nat.eqb (length l) (length m) && walkLists strictWalk l m
      | _ => false end
  | NGroup _ l => match parsed with
      | NGroup _ m => Nat.eqb (length l) (length m) && walkLists strictWalk l m
      | _ => false end
  | NTypeChoice _ _ a b => match parsed with
      | NTypeChoice _ _ a' b' => strictWalk a a' && strictWalk b b'
      | _ => false end
  | NSizeOp _ _ s t => match parsed with
      | NSizeOp _ _ s' t' => strictWalk t t' && strictWalk s s'
      | _ => false end
  | NRange _ _ a b => match parsed with
      | NRange _ _ a' b' => strictWalk a a' && strictWalk b b'
      | _ => false end
  | NEntry _ i v _ => match parsed with
      | NEntry _ j w None => identEqb i j && strictWalk v w
      | _ => false end
  | NEnumeration _ _ v => match parsed with
      | NEnumeration _ _ v' => match v, v' with NNil, NNil => true | NNil, _ | _, NNil => false | _, _ => strictWalk v v' end
      | _ => false end
  | _ => testWalk valid parsed
  end.

(** Expected nodes, with the zero positions and tokens the tests leave. *)
Definition z := zeroPos.
Definition zr := mkRange zeroPos zeroPos.
Definition at_ (off line col : Z) : position := mkPos [] off line col.
Definition name_ (s : string) : ident := mkIdent z (str s).
Definition rule_ (s : string) (v : node) : node := NCDDL z [NRule z (name_ s) v None].
Definition int_ (v : Z) : node := NIntegerLiteral z ILLEGAL v.
Definition float_ (b : Z) : node := NFloatLiteral zr ILLEGAL b.
Definition text_ (s : string) : node := NTextLiteral z ILLEGAL (str s).
Definition uint_ (v : Z) : option uintLit := Some (mkUint z ILLEGAL v).

(** One row of a test: the source, the expected tree, the expected diagnostics.
    The lists of diagnostics are compared, as texts, when their lengths agree
    (for example parser_test.go:252-256). *)
Definition diagText (d : diag) : bytes := diagDiagnostic (fun _ => []) (fun _ => []) d.
Definition parsesTo (walk : node -> node -> bool) (row : string * node * list diag) : bool :=
  let '(s, v, ds) := row in
  match parse XT (str s) with
  | Ok ((Some root, errs), _) =>
      let l := match errs with Some l => l | None => [] end in
      (if Nat.eqb (length l) (length ds) then listEqb beq (map diagText l) (map diagText ds) else true)
      && walk v root
  | _ => false
  end.

(** No diagnostics at all. *)
Definition parsesClean (row : string * node * list diag) : bool :=
  match parse XT (str (fst (fst row))) with Ok ((_, None), _) => true | _ => false end.

Definition typePos := at_ 7 1 8.

(** TestParseIdentiferToTypeRule (parser_test.go:194-232); it requires [err == nil]. *)
Definition rows_types : list (string * node * list diag) := map (fun sv => (fst sv, rule_ "name" (snd sv), []))
  [("name = bool", NBooleanType typePos BOOL);
   ("name = uint", NUintType (mkRange typePos (posTo typePos 4)) UINT);
   ("name = nint", NNegativeIntegerType typePos NINT);
   ("name = int", NIntegerType typePos INT);
   ("name = float", NFloatType typePos FLOAT 0);
   ("name = float16", NFloatType typePos FLOAT16 0);
   ("name = float32", NFloatType typePos FLOAT32 0);
   ("name = float64", NFloatType typePos FLOAT64 0);
   ("name = bytes", NBytesType typePos BYTES);
   ("name = bstr", NBstrType typePos BSTR);
   ("name = tstr", NTstrType typePos TSTR);
   ("name = text", NTstrType typePos TEXT);
   ("name = null", NNullType typePos NULL)].
Example test_identifier_to_type : forallb (parsesTo strictWalk) rows_types && forallb parsesClean rows_types = true.
Proof. vm_compute. reflexivity. Qed.

(** TestParseTextLiteral (parser_test.go:235-260) *)
Definition rows_text : list (string * node * list diag) :=
  [("name = ""text""", rule_ "name" (text_ "text"), []);
   ("name = ""'red' pen""", rule_ "name" (text_ "'red' pen"), [])].
Example test_text_literal : forallb (parsesTo strictWalk) rows_text && forallb parsesClean rows_text = true.
Proof. vm_compute. reflexivity. Qed.

(** TestNumericLiteral (parser_test.go:262-289) *)
Definition rows_numeric : list (string * node * list diag) :=
  [("num = 1", rule_ "num" (int_ 1), []);
   ("num = 2.4", rule_ "num" (float_ 4612586738352862003), []);
   ("num = 0x10", rule_ "num" (int_ 16), []);
   ("num = 0.10", rule_ "num" (float_ 4591870180066957722), [])].
Example test_numeric_literal : forallb (parsesTo strictWalk) rows_numeric && forallb parsesClean rows_numeric = true.
Proof. vm_compute. reflexivity. Qed.

(** TestEnumeration (parser_test.go:291-315) *)
Definition rows_enum : list (string * node * list diag) :=
  [("name = &()", rule_ "name" (NEnumeration z ILLEGAL (NGroup z [])), [])].
Example test_enumeration : forallb (parsesTo strictWalk) rows_enum && forallb parsesClean rows_enum = true.
Proof. vm_compute. reflexivity. Qed.

(** TestRegexpOperator (parser_test.go:316-348) *)
Definition rows_regexp : list (string * node * list diag) :=
  [("some-text = tstr .regexp """"",
    rule_ "some-text" (NRegexp z ILLEGAL (Some (at_ 12 1 13, TSTR)) (text_ "")), []);
   ("some-text = tstr .regexp ""[A-Za-z0-9]+@[A-Za-z0-9]+(\\.[A-Za-z0-9]+)+""",
    rule_ "some-text" (NRegexp z ILLEGAL (Some (at_ 12 1 13, TSTR))
      (text_ "[A-Za-z0-9]+@[A-Za-z0-9]+(\\.[A-Za-z0-9]+)+")), [])].
Example test_regexp : forallb (parsesTo strictWalk) rows_regexp && forallb parsesClean rows_regexp = true.
Proof. vm_compute. reflexivity. Qed.

(** TestCommentGroups (parser_test.go:350-379) *)
Definition rows_comments : list (string * node * list diag) :=
  [("; first line
;second line", NCDDL z [NCommentGroup [mkComment z (str " first line"); mkComment z (str "second line")]], [])].
Example test_comment_groups : forallb (parsesTo strictWalk) rows_comments && forallb parsesClean rows_comments = true.
Proof. vm_compute. reflexivity. Qed.

(** TestTag (parser_test.go:381-429) *)
Definition rows_tag : list (string * node * list diag) := map (fun sv => (fst sv, rule_ "tag" (snd sv), []))
  [("tag = #", NTag z ILLEGAL None None NNil);
   ("tag = #7", NTag z ILLEGAL (uint_ 7) None NNil);
   ("tag = #0", NTag z ILLEGAL (uint_ 0) None NNil);
   ("tag = #2.63", NTag z ILLEGAL (uint_ 2) (uint_ 63) NNil);
   ("tag = #7.0", NTag z ILLEGAL (uint_ 7) (uint_ 0) NNil);
   ("tag = #6.2(bstr)", NTag z ILLEGAL (uint_ 6) (uint_ 2) (NBstrType (at_ 11 1 12) BSTR))].
Example test_tag : forallb (parsesTo strictWalk) rows_tag && forallb parsesClean rows_tag = true.
Proof. vm_compute. reflexivity. Qed.

(** TestTypeChoice (parser_test.go:431-462) *)
Definition rows_choice : list (string * node * list diag) :=
  [("choice = ""bow tie"" / ""necktie"" / ""Internet attire""",
    rule_ "choice" (NTypeChoice z ILLEGAL (text_ "bow tie")
      (NTypeChoice z ILLEGAL (text_ "necktie") (text_ "Internet attire"))), []);
   ("choice = 6 / 17", rule_ "choice" (NTypeChoice z ILLEGAL (int_ 6) (int_ 17)), [])].
Example test_type_choice : forallb (parsesTo strictWalk) rows_choice && forallb parsesClean rows_choice = true.
Proof. vm_compute. reflexivity. Qed.

(** TestOperatorSize (parser_test.go:466-498) *)
Definition rows_size : list (string * node * list diag) :=
  [("item = bstr .size 4", rule_ "item" (NSizeOp z ILLEGAL (int_ 4) (NBstrType typePos BSTR)), []);
   ("item = bstr .size (1..63)", rule_ "item" (NSizeOp z ILLEGAL
      (NGroup z [NRange z ILLEGAL (int_ 1) (int_ 63)]) (NBstrType typePos BSTR)), []);
   ("item = uint .size 3", rule_ "item" (NSizeOp z ILLEGAL (int_ 3)
      (NUintType (mkRange typePos (posTo typePos 4)) UINT)), [])].
Example test_operator_size : forallb (parsesTo strictWalk) rows_size && forallb parsesClean rows_size = true.
Proof. vm_compute. reflexivity. Qed.

(** TestParseGroup (parser_test.go:500-527) *)
Definition rows_group : list (string * node * list diag) :=
  [("item = (name: tstr)", rule_ "item" (NGroup typePos
      [NEntry z (name_ "name") (NTstrType (at_ 14 1 15) TSTR) None]), [])].
Example test_group : forallb (parsesTo strictWalk) rows_group && forallb parsesClean rows_group = true.
Proof. vm_compute. reflexivity. Qed.

(** TestRange (parser_test.go:529-556) *)
Definition rows_range : list (string * node * list diag) :=
  [("range = 0..10", rule_ "range" (NRange z ILLEGAL (int_ 0) (int_ 10)), []);
   ("range = 0.0..10.0", rule_ "range" (NRange z ILLEGAL (float_ 0) (float_ 4621819117588971520)), [])].
Definition rows_range_bad : list (string * node * list diag) :=
  [("range = 0..10.0", rule_ "range" (NRange z ILLEGAL NNil NNil),
    [mkDiag (at_ 0 1 12) (at_ 0 1 15) MFloatForInt]);
   ("range = 0.0..10", rule_ "range" (NRange z ILLEGAL NNil NNil),
    [mkDiag (at_ 0 1 14) (at_ 0 1 16) MIntForFloat])].
Example test_range : forallb (parsesTo strictWalk) rows_range && forallb parsesClean rows_range = true.
Proof. vm_compute. reflexivity. Qed.
(** The expected trees are never compared in these two rows: the parsed rule has no value.
    The diagnostics are those the test expects, and no others. *)
Example test_range_bad : forallb (parsesTo testWalk) rows_range_bad = true /\
  map (fun r => match parse XT (str (fst (fst r))) with Ok ((_, Some l), _) => length l | _ => O end) rows_range_bad = [1; 1]%nat.
Proof. vm_compute. split; reflexivity. Qed.

(** [testWalk], as the tests run it, accepts what the stricter comparison does. *)
Example test_walk_as_run : forallb (parsesTo testWalk)
  (rows_types ++ rows_text ++ rows_numeric ++ rows_enum ++ rows_regexp ++ rows_comments ++ rows_tag ++ rows_choice
   ++ rows_size ++ rows_group ++ rows_range ++ rows_range_bad) = true.
Proof. vm_compute. reflexivity. Qed.

(** TestE2EFast (parser_test.go:576-606): every file of testdata/language parses
    without diagnostics. *)

(** testdata/language/arrays.cddl *)
Definition file_arrays : bytes := str "unlimited-people = [+ person]
unilim-people-1 = [1* person]
one-or-two-people = [1*2 person]
optional-people = [ ? person ]

person = (
    name: tstr,
    age: uint,
)
".

(** testdata/language/bools.cddl *)
Definition file_bools : bytes := str "isTrue = true
isFalse = false
isBool = bool
isBoolChoice = isTrue / isFalse
 ".

(** testdata/language/control_operator_regexp.cddl *)
Definition file_control_operator_regexp : bytes := str "nai = tstr .regexp ""[A-Za-z0-9]+@[A-Za-z0-9]+(\\.[A-Za-z0-9]+)+""".

(** testdata/language/control_operator_size.cddl *)
Definition file_control_operator_size : bytes := str "full-address = [[+ label], ip4, ip6]
ip4 = bstr .size 4
ip6 = bstr .size 16
label = bstr .size (1..63)
".

(** testdata/language/group.cddl *)
Definition file_group : bytes := str "person = {
    identity,
    employer: tstr,
}
dog = {
    identity,
    leash-length: float,
}
identity = (
    age: int,
    name: tstr,
)".

(** testdata/language/groups_nested.cddl *)
Definition file_groups_nested : bytes := str "person = {(
    age: int,
    name: tstr,
    employer: tstr,
)}
".

(** testdata/language/occurrence.cddl *)
Definition file_occurrence : bytes := str "apartment = {
    kitchen: size,
    * bedroom: size,
}

size = float".

(** testdata/language/operator_precedence.cddl *)
Definition file_operator_precedence : bytes := str "t = [group1]
group1 = (a / b // c / d)
a = 1 b = 2 c = 3 d = 4
".

(** testdata/language/prelude.cddl *)
Definition file_prelude : bytes := str "isBool = bool
isUint = uint
isNint = nint
isInt = int
isFloat16 = float16
isFloat32 = float32
isFloat64 = float64
isFloat = float
isBstr = bstr / bytes
isText = tstr / text".

(** testdata/language/representation_types.cddl *)
Definition file_representation_types : bytes := str "my_breakfast = #6.55799(breakfast)
breakfast = cereal / porridge
cereal = #6.998(tstr)
porridge = #6.999([liquid, solid])
liquid = milk / water
milk = 0
water = 1
solid = tstr".

(** testdata/language/socket_plug_empty.cddl *)
Definition file_socket_plug_empty : bytes := str "tcp-header = {seq: uint, ack: uint, * $$tcp-option}

PersonalData = {
    ? displayName: tstr,
    NameComponents,
    ? age: uint,
    * $$personaldata-extensions
}
NameComponents = (
    ? firstName: tstr,
    ? familyName: tstr,
)
".

(** testdata/language/socket_plug_initialized.cddl *)
Definition file_socket_plug_initialized : bytes := str "tcp-header = {seq: uint, ack: uint, * $$tcp-option}

; later, in a different file
$$tcp-option //= (
    sack: [+(left: uint, right: uint)]
)
; and, maybe in another file
$$tcp-option //= (
    sack-permitted: true
)

PersonalData = {
    ? displayName: tstr,
    NameComponents,
    ? age: uint,
    * $$personaldata-extensions
}
NameComponents = (
    ? firstName: tstr,
    ? familyName: tstr,
)

; The above already works as is.
; But then, we can add later:
$$personaldata-extensions //= (
    favorite-salsa: tstr,
)

; and again, somewhere else:
$$personaldata-extensions //= (
    shoesize: uint,
)".

(** testdata/language/unwrap.cddl *)
Definition file_unwrap : bytes := str "basic-header = [
    field1: int,
    field2: text,
]
advanced-header = [
    ~basic-header,
    field3: bytes
]".

(** testdata/language/valid_range.cddl *)
Definition file_valid_range : bytes := str "device-address = byte
max-byte = 255
byte = 0..max-byte
first-non-byte = 256
byte1 = 0...first-non-byte
".

Example test_e2e : forallb (fun s => match parse XT s with Ok ((Some _, None), _) => true | _ => false end)
  [file_arrays;
   file_bools;
   file_control_operator_regexp;
   file_control_operator_size;
   file_group;
   file_groups_nested;
   file_occurrence;
   file_operator_precedence;
   file_prelude;
   file_representation_types;
   file_socket_plug_empty;
   file_socket_plug_initialized;
   file_unwrap;
   file_valid_range] = true.
Proof. vm_compute. reflexivity. Qed.

(** ** environment/environment_test.go *)

(** TestEnvAdd (environment_test.go:12-41): [Add] returns an error exactly for the
    second [age] of the shared environment, and [Get] then finds a value. *)
Example test_env_add :
  let row e k v := let '(e', err) := Env.add e (str k) v in (err, match Env.get e' (str k) with NNil => false | _ => true end) in
  let shared := fst (Env.add newEnvironment (str "age") (int_ 0)) in
  [row newEnvironment "name" (NTstrType z ILLEGAL); row newEnvironment "age" (int_ 0); row shared "age" (int_ 0)]
  = [(false, true); (false, true); (true, true)].
Proof. vm_compute. reflexivity. Qed.

(** TestEnvGetEmpty (environment_test.go:43-51) *)
Example test_env_get_empty : Env.get newEnvironment (str "non-existent-ident") = NNil.
Proof. reflexivity. Qed.

(** ** transforms/codegen/golang/gen_test.go *)

(** TestGen (gen_test.go:12-29): the source parses with [err == nil], and [Visit]
    and [String] return. *)
Example test_gen : generated (str "person = [name: tstr, age: uint]") = Ok
  [GType (declDoc (str "person")) (str "Person")
     (GStruct [TOARRAY; ([str "Name"], GIdent (str "string"), None); ([str "Age"], GIdent (str "uint"), None)]);
   GMethod (validDoc (str "person")) (str "person") (str "Person") []].
Proof. vm_compute. reflexivity. Qed.

(** ** examples *)

(** The source of examples/lexer/main.go:11-20, with the tabs of the file written as
    spaces, and that of examples/parser/main.go, which has [~person]. *)
Definition exampleSource (p : string) : bytes :=
  str ("
  min-age = 18
  max-age = 150

  byte = uint .size 1
  public-key = [24*24 byte]
  person = (name: tstr, public-key: public-key)

  adult = (" ++ p ++ ", age: min-age .. max-age) ; adults are composed from person
 ").

(** examples/lexer/main.go: the loop ends, with no illegal token. *)
Example example_lexer : match scanAll XT (S (length (exampleSource "person"))) (exampleSource "person") with
  | Ok ts => forallb (fun k => negb (teq (tTok k) ILLEGAL)) ts | _ => false end = true.
Proof. vm_compute. reflexivity. Qed.

(** examples/parser/main.go: six rules, without diagnostics. *)
Example example_parser : match parse XT (exampleSource "~person") with
  | Ok ((Some (NCDDL _ l), None), _) => Some (length l) | _ => None end = Some 6%nat.
Proof. vm_compute. reflexivity. Qed.
