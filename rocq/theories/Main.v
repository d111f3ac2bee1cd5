(** cmd/cddlc/main.go and commands.go: the process, from its arguments and input to what it
    prints and its exit status; with the parts of bufio and strings the REPL reads through. *)
From Coq Require Import String.
From Verif Require Import Base Utf8 Token Ext Lexer Ast Env Diag Parser Print Repl Codegen Cli.
Open Scope string_scope.
Open Scope list_scope.
Open Scope Z_scope.

(** ** Reading lines *)

(** bufio's dropCR. *)
Definition dropCR (l : bytes) : bytes := if last l 0 =? 13 then removelast l else l.

(** bufio.MaxScanTokenSize: the buffer holds that many bytes, and Scan gives up when it is
    full without a newline in it (bufio/scan.go, [Scan]). *)
Definition maxTokenSize : Z := 65536.

(** The tokens bufio.ScanLines cuts, from the pieces between newlines; what follows the
    last newline counts if it is not empty. *)
Fixpoint deliver (l : list bytes) : list bytes :=
  match l with
  | [] => []
  | x :: r =>
    if maxTokenSize <=? zlen x then []
    else match r, x with
         | [], [] => []
         | _, _ => dropCR x :: deliver r
         end
  end.

(** repl.go:23, 32: the lines a bufio.Scanner delivers from the standard input. That input
    cannot fail before its end is a simplification. *)
Definition scanLines (s : bytes) : list bytes := deliver (split 10 s).

(** unicode.IsSpace *)
Definition isSpaceRune (r : Z) : bool :=
  inRangeB 9 13 r || (r =? 32) || (r =? 133) || (r =? 160) || (r =? 5760) || inRangeB 8192 8202 r
  || (r =? 8232) || (r =? 8233) || (r =? 8239) || (r =? 8287) || (r =? 12288).

(** utf8.RuneStart *)
Definition runeStart (b : Z) : bool := negb (inRangeB 128 191 b).

(** utf8.DecodeLastRune: the last rune and its width. *)
Definition decodeWhole (s : bytes) : Z * Z :=
  let '(r, w) := decodeRune s in if w =? zlen s then (r, w) else (RuneError, 1).
Definition decodeLastRune (s : bytes) : Z * Z :=
  match rev s with
  | [] => (RuneError, 0)
  | b1 :: t =>
    if b1 <? 128 then (b1, 1)
    else match t with
    | [] => (RuneError, 1)
    | b2 :: t =>
      if runeStart b2 then decodeWhole [b2; b1]
      else match t with
      | [] => (RuneError, 1)
      | b3 :: t =>
        if runeStart b3 then decodeWhole [b3; b2; b1]
        else match t with
        | [] => (RuneError, 1)
        | b4 :: _ => if runeStart b4 then decodeWhole [b4; b3; b2; b1] else (RuneError, 1)
        end
      end
    end
  end.

(** strings.TrimLeftFunc and TrimRightFunc with unicode.IsSpace; at most as many steps as
    there are bytes. *)
Fixpoint trimLeft (n : nat) (s : bytes) : bytes :=
  match n with
  | O => s
  | S n' =>
    let '(r, w) := decodeRune s in
    if isSpaceRune r then trimLeft n' (skipn (Z.to_nat w) s) else s
  end.
Fixpoint trimRight (n : nat) (s : bytes) : bytes :=
  match n with
  | O => s
  | S n' =>
    let '(r, w) := decodeLastRune s in
    if isSpaceRune r then trimRight n' (firstn (length s - Z.to_nat w) s) else s
  end.

(** strings.TrimSpace; its fast path for ASCII gives the same. *)
Definition trimSpace (s : bytes) : bytes :=
  let t := trimLeft (length s) s in trimRight (length t) t.

(** ** The REPL's transcript *)

(** Behaviour and data outside the model: that of [CliExt], fmt's %f, the variables the
    linker sets (main.go:11-15), runtime.GOOS and GOARCH, and what log.Fatal prints. *)
Record MainExt : Type := mkMain {
  mCli : CliExt;
  mFmtF : Z -> bytes;
  mVersion : bytes; mCommit : bytes; mDate : bytes;
  mGoos : bytes; mGoarch : bytes;
  mFatal : cmdErr -> bytes
}.

(** fmt.Println of a text. *)
Definition ln (s : bytes) : bytes := s ++ [10].

(** repl.go:25 *)
Definition greeting : bytes := ln (str "Welcome to the cddlc quick repl.").
(** repl.go:20, 29 *)
Definition prompt : bytes := str ">>> ".
(** repl.go:39-44 *)
Definition helpText : bytes :=
  ln (str ":help - Prints this help message") ++ ln (str ":tree - Prints the syntax tree for a value in scope") ++ ln []
  ++ ln (str ":pv   - Toggle printing the type after every execution") ++ ln [] ++ ln (str ":exit - Exits the REPL").

(** The tokens up to EOF, or up to where Scan does not return (repl.go:92-103,
    commands.go:50-59). *)
Fixpoint scanTrace (X : Ext) (n : nat) (l : lexer) : list tokInfo * res unit :=
  match n with
  | O => ([], NoFuel)
  | S n' =>
    match scan X l with
    | Ok (t, l') =>
      if teq (tTok t) EOF then ([t], Ok tt)
      else let '(ts, r) := scanTrace X n' l' in (t :: ts, r)
    | Panic => ([], Panic)
    | Hang => ([], Hang)
    | NoFuel => ([], NoFuel)
    end
  end.

(** repl.go:92-103, [printTokens]. *)
Definition tokenText (X : Ext) (s : bytes) : bytes * res unit :=
  let '(ts, r) := scanTrace X (S (length s)) (newLexer s) in (flat_map tokenLine ts, r).

(** repl.go:59-66, [:tree]. The argument is the start of a format; a bound name has no
    format verbs (C71). *)
Fixpoint treeText (fmtF : Z -> bytes) (e : environment) (args : list bytes) : bytes * res unit :=
  match args with
  | [] => ([], Ok tt)
  | a :: r =>
    match get e a with
    | NNil => treeText fmtF e r
    | v =>
      match format fmtF v with
      | Ok t => let '(o, x) := treeText fmtF e r in (a ++ str ": " ++ ln t ++ o, x)
      | Panic => (a ++ str ": ", Panic)
      | Hang => (a ++ str ": ", Hang)
      | NoFuel => (a ++ str ": ", NoFuel)
      end
    end
  end.

(** repl.go:105-112, [printcddlShort]. *)
Definition typesText (root : option node) : bytes * res unit :=
  match root with
  | Some (NCDDL _ rules) =>
    (flat_map (fun n => match n with NRule _ i v _ => ln (iName i ++ str " ; " ++ typeName v) | _ => [] end) rules, Ok tt)
  | _ => ([], Panic)
  end.

(** repl.go:29-89, one turn after the prompt: what it prints until it ends, crashes or
    hangs. [turn] of Repl.v is the same without the text. *)
Definition replTurn (X : Ext) (M : MainExt) (lex : bool) (s : session) (line : bytes) : bytes * res (option session) :=
  let text := trimSpace line in
  if hasPrefix text (str ":help") then (helpText, Ok (Some s))
  else if hasPrefix text (str ":pv") then ([], Ok (Some (mkSession (sEnv s) (negb (sVerbose s)))))
  else if hasPrefix text (str ":exit") then (ln (str "exiting..."), Ok None)
  else if hasPrefix text (str ":tree") then
    let '(o, r) := treeText (mFmtF M) (sEnv s) (tl (split 32 text)) in (o, _ <- r;; Ok (Some s))
  else
    let '(o1, r1) := if lex then tokenText X line else ([], Ok tt) in
    match (_ <- r1;; parseSource X (parseFuel line) line (sEnv s)) with
    | Ok ((root, ds), p) =>
      let o2 := match ds with Some l => ln (errorListString (cFmtV (mCli M)) (cQuote (mCli M)) l) | None => [] end in
      let '(o3, r3) := if sVerbose s then typesText root else ([], Ok tt) in
      (o1 ++ o2 ++ o3, _ <- r3;; Ok (Some (mkSession (env p) (sVerbose s))))
    | Panic => (o1, Panic)
    | Hang => (o1, Hang)
    | NoFuel => (o1, NoFuel)
    end.

(** repl.go:28-89, the loop. *)
Fixpoint replLines (X : Ext) (M : MainExt) (lex : bool) (s : session) (lines : list bytes) : bytes * outcome :=
  match lines with
  | [] => (prompt, Failure EScan)
  | line :: r =>
    let '(o, t) := replTurn X M lex s line in
    match t with
    | Ok None => (prompt ++ o, Success)
    | Ok (Some s1) => let '(o1, e) := replLines X M lex s1 r in (prompt ++ o ++ o1, e)
    | t => (prompt ++ o, ended t)
    end
  end.

(** repl.go:22-90, [Repl]. *)
Definition replCmd (X : Ext) (M : MainExt) (lex : bool) (stdin : bytes) : bytes * outcome :=
  let '(o, e) := replLines X M lex (mkSession newEnvironment false) (scanLines stdin) in (greeting ++ o, e).

(** ** The process *)

(** What a run leaves: files, standard output, standard error, how it ended. The text the
    run-time system prints for a panic is left out. *)
Record proc : Type := mkProc { prFs : fs; prOut : bytes; prErr : bytes; prEnd : outcome }.

(** generate.go:132-135, commands.go:81-85: the reports on stderr. *)
Definition reportText (outs : list bytes) : bytes := 10 :: flat_map ln outs.

(** The absolute path of a directory as text, as os.Getwd returns it. *)
Definition pathText (p : path) : bytes := match p with [] => [47] | _ => flat_map (fun c => 47 :: c) p end.

(** generate.go:26, 55-56: the fallback notice. *)
Definition noConfigText (wd : path) : bytes :=
  str "could not find either cddlc.json or cddlc.yaml in current dir" ++ str " `" ++ pathText wd ++ str "`"
  ++ ln (str " ...falling back to default config").

(** commands.go:98-108, [DoctorCmd]; '\t' is 9. *)
Definition doctorText (M : MainExt) : bytes :=
  ln (ln [] ++ str "Version" ++ [9; 9] ++ str ": " ++ ln (mVersion M) ++ str "Commit" ++ [9; 9] ++ str ": " ++ ln (mCommit M)
      ++ str "Build Date" ++ [9] ++ str ": " ++ ln (mDate M) ++ str "Runtime" ++ [9; 9] ++ str ": " ++ ln (mGoos M)
      ++ str "Arch" ++ [9; 9] ++ str ": " ++ ln (mGoarch M)).

(** The commands of main.go:20-63. *)
Inductive cmd : Type := CInit | CGenerate | CLex | CParse | CRepl | CDoctor.

(** main.go:20-63: names and aliases. *)
Definition commandNamed (n : bytes) : option cmd :=
  if beq n (str "init") then Some CInit
  else if beq n (str "generate") || beq n (str "gen") then Some CGenerate
  else if beq n (str "lex") then Some CLex
  else if beq n (str "parse") then Some CParse
  else if beq n (str "qrepl") then Some CRepl
  else if beq n (str "doctor") then Some CDoctor
  else None.

(** main.go:67-69: log.Fatal on an error. *)
Definition finish (M : MainExt) (f : fs) (out err : bytes) (e : outcome) : proc :=
  mkProc f out (match e with Failure x => err ++ mFatal M x | _ => err end) e.

(** os.Open and reading a file named on the command line, commands.go:22-32. *)
Definition openArg (O : OsExt) (cwd : path) (f : fs) (a : bytes) : option bytes :=
  match pathOf cwd a with
  | Some p => if dirOnly a then None else readFile O f p
  | None => None
  end.

(** main.go:17-70 for a command of the program with its positional arguments: the process in
    directory [cwd], which os.Getwd finds if [wdOk]. The help the cli library adds, its
    treatment of unknown commands and its parsing of flags are not modelled, except that
    qrepl's flag is set if its first argument is [--lex] or [-lex]. *)
Definition runCommand (X : Ext) (M : MainExt) (O : OsExt) (cwd : path) (wdOk : bool) (f : fs) (stdin : bytes) (c : cmd) (args : list bytes) : proc :=
  let C := mCli M in
  let wd := if wdOk then Some cwd else None in
  match c with
  | CInit => let '(f', e) := initCmd O wd f in finish M f' [] [] e
  | CGenerate =>
    let '(f', outs, e) := generateCmd X C O wd f in
    let notice := match wd with
                  | Some d => match loadConfigFromDir C O f d with inr None => noConfigText d | _ => [] end
                  | None => []
                  end in
    finish M f' notice (match e with Failure EParser => reportText outs | _ => [] end) e
  | CLex =>
    match args with
    | [a] =>
      match openArg O cwd f a with
      | None => finish M f [] [] (Failure ERead)
      | Some s =>
        let '(ts, r) := scanTrace X (S (length s)) (newLexer s) in
        let illegals := zlen (filter (fun t => teq (tTok t) ILLEGAL) ts) in
        finish M f (flat_map tokenLine ts) []
          (match r with Ok _ => if 0 <? illegals then Failure (EIllegal illegals) else Success | r => ended r end)
      end
    | _ => finish M f [] [] (Failure EArgs)
    end
  | CParse =>
    match args with
    | [a] =>
      match openArg O cwd f a with
      | None => finish M f [] [] (Failure ERead)
      | Some s =>
        match parse X s with
        | Ok ((root, ds), _) =>
          match (match ds with Some l => o <- errorStringer C s l;; Ok (reportText o) | None => Ok [] end) with
          | Ok err =>
            match cMarshal C root with
            | Some t => finish M f (ln t) err Success
            | None => finish M f (cFmtV C (rootNode root)) err (Failure EMarshal)
            end
          | r => finish M f [] [] (ended r)
          end
        | r => finish M f [] [] (ended r)
        end
      end
    | _ => finish M f [] [] (Failure EArgs)
    end
  | CRepl =>
    let lex := match args with a :: _ => beq a (str "--lex") || beq a (str "-lex") | [] => false end in
    let '(o, e) := replCmd X M lex stdin in finish M f o [] e
  | CDoctor => finish M f (doctorText M) [] Success
  end.

(** The process for a whole command line, if it names a command. *)
Definition main (X : Ext) (M : MainExt) (O : OsExt) (cwd : path) (wdOk : bool) (f : fs) (stdin : bytes) (argv : list bytes) : option proc :=
  match argv with
  | n :: args => match commandNamed n with Some c => Some (runCommand X M O cwd wdOk f stdin c args) | None => None end
  | [] => None
  end.
