(** cmd/cddlc/commands/repl.go *)
From Coq Require Import String.
From Verif Require Import Base Token Ext Lexer Ast Env Diag Parser Print.
Open Scope string_scope.
Open Scope list_scope.
Open Scope Z_scope.

(** strings.HasPrefix *)
Fixpoint hasPrefix (s p : bytes) : bool :=
  match p, s with
  | [], _ => true
  | y :: p', x :: s' => (x =? y) && hasPrefix s' p'
  | _, _ => false
  end.

(** strings.Split(s, sep) for a one-byte separator. *)
Fixpoint split (sep : Z) (s : bytes) : list bytes :=
  match s with
  | [] => [[]]
  | x :: r =>
    if x =? sep then [] :: split sep r
    else match split sep r with
         | h :: t => (x :: h) :: t
         | [] => [[x]]
         end
  end.

(** Library behaviour outside the model: strings.TrimSpace and fmt's %f. *)
Record ReplExt : Type := mkReplExt { xTrimSpace : bytes -> bytes; xFmtF : Z -> bytes }.

(** What the REPL writes, besides the greeting and the prompt of every turn. *)
Inductive out : Type :=
| OHelp                                (* repl.go:39-44 *)
| OExit                                (* repl.go:54 *)
| OTree (arg text : bytes)             (* repl.go:62-65; [arg] has no format verbs when it is a bound name *)
| OToken (t : tokInfo)                 (* repl.go:96 *)
| OErrors (ds : list diag)             (* repl.go:82 *)
| OType (name typ : bytes).            (* repl.go:108 *)

(** How the command ends: [os.Exit(0)], or the error "could not scan" once the
    input is exhausted (repl.go:33-35). *)
Inductive ending : Type := Exited | CouldNotScan.

(** The variables of the loop: the shared environment (a pointer, so every parser
    updates the same one) and parseVerbose. *)
Record session : Type := mkSession { sEnv : environment; sVerbose : bool }.

(** repl.go:59-66, [:tree]. *)
Fixpoint printTrees (R : ReplExt) (e : environment) (args : list bytes) : res (list out) :=
  match args with
  | [] => Ok []
  | a :: r =>
    match get e a with
    | NNil => printTrees R e r
    | v => t <- format (xFmtF R) v;; o <- printTrees R e r;; Ok (OTree a t :: o)
    end
  end.

(** repl.go:92-103, [printTokens]. The number of calls of Scan needed is at most
    one more than the length (C01). *)
Definition printTokens (X : Ext) (line : bytes) : res (list out) :=
  ts <- scanAll X (S (length line)) line;; Ok (map OToken ts).

(** repl.go:105-112, [printcddlShort]; a nil [*ast.CDDL] is dereferenced. *)
Definition printcddlShort (root : option node) : res (list out) :=
  match root with
  | Some (NCDDL _ rules) =>
    Ok (flat_map (fun n => match n with NRule _ i v _ => [OType (iName i) (typeName v)] | _ => [] end) rules)
  | _ => Panic
  end.

(** repl.go:29-89, one turn of the loop for a line of input; no session is left
    after [:exit]. Scanner.Bytes and Scanner.Text hold the same line. *)
Definition turn (X : Ext) (R : ReplExt) (lex : bool) (s : session) (line : bytes) : res (list out * option session) :=
  let text := xTrimSpace R line in
  if hasPrefix text (str ":help") then Ok ([OHelp], Some s)
  else if hasPrefix text (str ":pv") then Ok ([], Some (mkSession (sEnv s) (negb (sVerbose s))))
  else if hasPrefix text (str ":exit") then Ok ([OExit], None)
  else if hasPrefix text (str ":tree") then
    o <- printTrees R (sEnv s) (tl (split 32 text));; Ok (o, Some s)
  else
    toks <- (if lex then printTokens X line else Ok []);;
    '(root, ds, p) <- parseSource X (parseFuel line) line (sEnv s);;
    types <- (if sVerbose s then printcddlShort root else Ok []);;
    Ok (toks ++ match ds with Some l => [OErrors l] | None => [] end ++ types, Some (mkSession (env p) (sVerbose s))).

(** repl.go:29-89, the loop over the lines the scanner delivers. How
    bufio.Scanner cuts the input into lines is not modelled. *)
Fixpoint replLoop (X : Ext) (R : ReplExt) (lex : bool) (s : session) (lines : list bytes) : res (list out * ending * session) :=
  match lines with
  | [] => Ok ([], CouldNotScan, s)
  | line :: r =>
    '(o, s') <- turn X R lex s line;;
    match s' with
    | None => Ok (o, Exited, s)
    | Some s1 => '(o1, en, s2) <- replLoop X R lex s1 r;; Ok (o ++ o1, en, s2)
    end
  end.

(** repl.go:22-90, [Repl] with the value of the lex flag. *)
Definition repl (X : Ext) (R : ReplExt) (lex : bool) (lines : list bytes) : res (list out * ending * session) :=
  replLoop X R lex (mkSession newEnvironment false) lines.
