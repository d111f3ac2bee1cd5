(** cmd/cddlc/commands.go, cmd/cddlc/commands/generate.go, init.go and config/config.go:
    the commands, over a model of the file system. *)
From Coq Require Import String.
From Verif Require Import Base Utf8 Token Ext Lexer Ast Env Diag Parser Repl Codegen.
Open Scope string_scope.
Open Scope list_scope.
Open Scope Z_scope.

(** ** File system *)

(** A path is the list of its components from the root. Symbolic and hard links are not
    modelled: a path is the identity of a file. *)
Definition path : Type := list bytes.

Inductive entry : Type := EFile (content : bytes) | EDir.

(** The first binding of a path counts; the root is always a directory. *)
Definition fs : Type := list (path * entry).

Fixpoint peq (a b : path) : bool :=
  match a, b with
  | [], [] => true
  | x :: a', y :: b' => beq x y && peq a' b'
  | _, _ => false
  end.

Fixpoint look (f : fs) (p : path) : option entry :=
  match p with
  | [] => Some EDir
  | _ =>
    match f with
    | [] => None
    | (q, e) :: f' => if peq q p then Some e else look f' p
    end
  end.

Definition set (f : fs) (p : path) (e : entry) : fs := (p, e) :: f.

(** Whether a proper prefix of the path is a regular file (ENOTDIR). *)
Fixpoint blockedAt (f : fs) (pre rest : path) : bool :=
  match rest with
  | [] => false
  | c :: r => match look f pre with
              | Some (EFile _) => true
              | _ => blockedAt f (pre ++ [c]) r
              end
  end.
Definition blocked (f : fs) (p : path) : bool := blockedAt f [] p.

(** Calls the operating system refuses for other reasons (permissions, a full disk),
    by path: stat, opening for reading, listing, opening for writing, mkdir, writing to
    an open file. *)
Record OsExt : Type := mkOs {
  oStat : path -> bool;
  oRead : path -> bool;
  oList : path -> bool;
  oOpen : path -> bool;
  oMkdir : path -> bool;
  oWrite : path -> bool
}.

(** The path a non-empty string names from the working directory [cwd]: components
    "" and "." are dropped and ".." removes the one before (lexically). *)
Definition pathOf (cwd : path) (s : bytes) : option path :=
  match s with
  | [] => None
  | c :: _ =>
    Some (fold_left (fun p d => if beq d [] || beq d (str ".") then p
                                else if beq d (str "..") then removelast p
                                else p ++ [d])
                    (split 47 s) (if c =? 47 then [] else cwd))
  end.

(** Strings that name only directories: those ending in "/", "." or "..". *)
Definition dirOnly (s : bytes) : bool :=
  let d := last (split 47 s) [] in beq d [] || beq d (str ".") || beq d (str "..").

Inductive statRes : Type := SDir | SFile | SNotExist | SErr.

(** os.Stat on a path. *)
Definition statP (O : OsExt) (f : fs) (p : path) (onlyDir : bool) : statRes :=
  if oStat O p || blocked f p then SErr
  else match look f p with
       | Some EDir => SDir
       | Some (EFile _) => if onlyDir then SErr else SFile
       | None => SNotExist
       end.

(** os.Stat on a string; the empty string names nothing. *)
Definition stat (O : OsExt) (f : fs) (cwd : path) (s : bytes) : statRes :=
  match pathOf cwd s with
  | None => SNotExist
  | Some p => statP O f p (dirOnly s)
  end.

(** os.Open followed by reading everything; reading a directory fails. *)
Definition readFile (O : OsExt) (f : fs) (p : path) : option bytes :=
  if oRead O p || blocked f p then None
  else match look f p with Some (EFile c) => Some c | _ => None end.

(** os.OpenFile with O_WRONLY|O_CREATE, and O_TRUNC if [trunc]. *)
Definition openWrite (O : OsExt) (trunc : bool) (f : fs) (p : path) : option fs :=
  if oOpen O p || blocked f p then None
  else match look f p with
       | Some EDir => None
       | Some (EFile _) => Some (if trunc then set f p (EFile []) else f)
       | None => match look f (removelast p) with
                 | Some EDir => Some (set f p (EFile []))
                 | _ => None
                 end
       end.

(** Writing at the end of an open file. *)
Definition append (f : fs) (p : path) (data : bytes) : fs :=
  match look f p with
  | Some (EFile c) => set f p (EFile (c ++ data))
  | _ => f
  end.

(** os.MkdirAll: every missing prefix is created in turn. The flag is false on an error. *)
Fixpoint mkdirFrom (O : OsExt) (f : fs) (pre rest : path) : fs * bool :=
  match rest with
  | [] => (f, true)
  | c :: r =>
    let p := pre ++ [c] in
    match look f p with
    | Some EDir => mkdirFrom O f p r
    | Some (EFile _) => (f, false)
    | None => if oMkdir O p then (f, false) else mkdirFrom O (set f p EDir) p r
    end
  end.
Definition mkdirAll (O : OsExt) (f : fs) (cwd : path) (s : bytes) : fs * bool :=
  match pathOf cwd s with
  | None => (f, false)
  | Some p => mkdirFrom O f [] p
  end.

(** Order of Go strings. *)
Fixpoint blt (a b : bytes) : bool :=
  match a, b with
  | _, [] => false
  | [], _ :: _ => true
  | x :: a', y :: b' => (x <? y) || ((x =? y) && blt a' b')
  end.

(** Insert into a sorted list without repetitions. *)
Fixpoint insertName (n : bytes) (l : list bytes) : list bytes :=
  match l with
  | [] => [n]
  | m :: r => if beq n m then l else if blt n m then n :: l else m :: insertName n r
  end.

(** The name of [q] if it lies directly in [p]. *)
Fixpoint childName (p q : path) : option bytes :=
  match p, q with
  | [], [n] => Some n
  | x :: p', y :: q' => if beq x y then childName p' q' else None
  | _, _ => None
  end.

(** The names in a directory, sorted. *)
Definition names (f : fs) (p : path) : list bytes :=
  fold_right (fun qe l => match childName p (fst qe) with Some n => insertName n l | None => l end) [] f.

(** ioutil.ReadDir. *)
Definition readDir (O : OsExt) (f : fs) (p : path) : option (list bytes) :=
  if oList O p || blocked f p then None
  else match look f p with Some EDir => Some (names f p) | _ => None end.

(** ** Configuration *)

(** config/config.go:50-57, [BuildConfig]. *)
Record build : Type := mkBuild { bPackage : bytes; bSource : bytes; bOut : bytes }.

(** config/config.go:60-66, [Config]; plugins and options are never read. A build is a
    pointer, and [None] is nil. *)
Record config : Type := mkConfig { cfVersion : bytes; cfBuilds : list (option build) }.

(** config/config.go:78-93, [NewDefaultConfig]. *)
Definition defaultConfig : config := mkConfig (str "1") [Some (mkBuild [] (str ".") (str "dist/"))].

(** Library behaviour outside the model: the generator's ([cGen]), the text
    [format.Node] writes, the JSON and YAML decoders, [filepath.Glob] below a directory
    whose path contains pattern characters, fmt's %+v on a node, strconv.Quote,
    json.MarshalIndent on a tree; and [os.Args]. *)
Record CliExt : Type := mkCli {
  cGen : GenExt;
  cFormat : bytes -> list gdecl -> bytes;
  cJson : bytes -> option config;
  cYaml : bytes -> option config;
  cGlob : fs -> path -> option (list path);
  cFmtV : node -> bytes;
  cQuote : bytes -> bytes;
  cMarshal : option node -> option bytes;
  cArgs : list bytes
}.

(** Errors the commands return. *)
Inductive cmdErr : Type :=
| EArgs                (* commands.go:40,69 *)
| ERead                (* a file cannot be read *)
| EGetwd
| EStat                (* generate.go:65,85 *)
| ENotDir              (* generate.go:69 *)
| EList                (* generate.go:73 *)
| EMkdir               (* generate.go:82 *)
| EOpen                (* generate.go:122 *)
| EParser              (* generate.go:136 *)
| EWrite               (* generate.go:143 *)
| EGlob                (* generate.go:102 *)
| EBase                (* config.go:108 *)
| EDecode              (* config.go:111 *)
| EExists              (* init.go:27 *)
| EIllegal (n : Z)     (* commands.go:62 *)
| EMarshal             (* commands.go:92 *)
| EScan.               (* commands/repl.go:35 *)

(** How a command ends. *)
Inductive outcome : Type := Success | Failure (e : cmdErr) | Crash | Loop | OutOfFuel.

(** The exit status of the process: main.go:67-69 ends with log.Fatal on an error. *)
Definition exitStatus (o : outcome) : option Z :=
  match o with Success => Some 0 | Failure _ => Some 1 | Crash => Some 2 | Loop | OutOfFuel => None end.

(** ** Reports *)

(** fmt's [%*s] with an argument of one rune. *)
Definition padStar (w : Z) (s : bytes) : bytes :=
  if (w <? -1000000) || (1000000 <? w) then str "%!(BADWIDTH)" ++ s
  else if w <? 0 then s ++ repeat 32 (Z.to_nat (- w - 1))
  else repeat 32 (Z.to_nat (w - 1)) ++ s.

(** The mark, U+02DC in UTF-8. *)
Definition mark : bytes := [203; 156].

(** generate.go:169, [lPrefix]. *)
Definition linePrefix (line : Z) : bytes := str "    " ++ fmtD line ++ str " | ".

(** generate.go:165-174 for one diagnostic; the index [lines[pos.Line-1]] panics when it
    is negative. *)
Definition report (C : CliExt) (lines : list bytes) (d : diag) : res (list bytes) :=
  let pos := dStart d in
  if pLine pos <=? zlen lines then
    if pLine pos <=? 0 then Panic
    else
      let pre := linePrefix (pLine pos) in
      Ok [diagString (cFmtV C) (cQuote C) d ++ [10] ++ pre ++ nth (Z.to_nat (pLine pos - 1)) lines [] ++ [10]
          ++ padStar (pColumn pos + zlen pre) mark]
  else Ok [].

(** generate.go:159-176 and, with the same body, commands.go:110-127, [errorStringer]. *)
Definition errorStringer (C : CliExt) (src : bytes) (ds : list diag) : res (list bytes) :=
  fold_left (fun acc d => outs <- acc;; o <- report C (split 10 src) d;; Ok (outs ++ o)) ds (Ok []).

(** ** generate *)

(** filepath.Base *)
Definition base (s : bytes) : bytes :=
  match s with
  | [] => str "."
  | _ => last (filter (fun d => negb (beq d [])) (split 47 s)) (str "/")
  end.

(** strings.Join(l, " ") *)
Fixpoint joinSpace (l : list bytes) : bytes :=
  match l with
  | [] => []
  | [x] => x
  | x :: r => x ++ 32 :: joinSpace r
  end.

(** generate.go:149-157, [addBuildHeader]: the text. *)
Definition header (args : list bytes) : bytes :=
  str "/*" ++ 10 :: str "  File generated using `" ++ base (hd [] args) ++ 32 :: joinSpace (tl args)
  ++ str "`. DO NOT EDIT" ++ 10 :: str "*/" ++ [10; 10].

(** The nil [*ast.CDDL] of ParseFile is a non-nil interface for [Visit]. *)
Definition rootNode (r : option node) : node := match r with Some n => n | None => NTypedNil KCDDL end.

(** What a command leaves: the file system, the reports on stderr, how it ended. *)
Definition run : Type := fs * list bytes * outcome.

Definition ended {A} (r : res A) : outcome :=
  match r with Ok _ => Success | Panic => Crash | Hang => Loop | NoFuel => OutOfFuel end.

(** generate.go:112-147, [generateFile]. The error of [gen.String] is dropped. *)
Definition generateFile (X : Ext) (C : CliExt) (O : OsExt) (pkg : bytes) (src out : path) (f : fs) : run :=
  match readFile O f src with
  | None => (f, [], Failure ERead)
  | Some s =>
    match openWrite O true f out with
    | None => (f, [], Failure EOpen)
    | Some f1 =>
      match parse X s with
      | Ok ((_, Some ds), _) =>
        match errorStringer C s ds with
        | Ok outs => (f1, outs, Failure EParser)
        | r => (f1, [], ended r)
        end
      | Ok ((root, None), _) =>
        match visit (cGen C) (rootNode root) (newGenerator pkg) with
        | Ok g =>
          if oWrite O out then (f1, [], Failure EWrite)
          else
            let g := genString (cGen C) g in
            (append (append f1 out (header (cArgs C))) out (cFormat C (gPkg g) (gDecls g)), [], Success)
        | r => (f1, [], ended r)
        end
      | r => (f1, [], ended r)
      end
    end
  end.

(** filepath.Ext of a name without "/": from the last dot on. *)
Definition ext (n : bytes) : bytes :=
  match split 46 n with
  | [_] => []
  | l => 46 :: last l []
  end.

(** strings.TrimSuffix(n, ".cddl") *)
Definition trimCddl (n : bytes) : bytes :=
  let k := (length n - 5)%nat in
  if beq (skipn k n) (str ".cddl") then firstn k n else n.

(** generate.go:87, the name of the output file. *)
Definition outName (n : bytes) : bytes := trimCddl n ++ str ".go".

(** generate.go:79-86: the output directory is created if it does not exist. *)
Definition ensureOut (O : OsExt) (f : fs) (cwd : path) (dir : bytes) : fs * option cmdErr :=
  match stat O f cwd dir with
  | SNotExist => let '(f', okay) := mkdirAll O f cwd dir in (f', if okay then None else Some EMkdir)
  | SErr => (f, Some EStat)
  | _ => (f, None)
  end.

(** generate.go:75-92, the loop over the files of one build. *)
Fixpoint generateFiles (X : Ext) (C : CliExt) (O : OsExt) (cwd : path) (b : build) (dir : path) (l : list bytes) (f : fs) : run :=
  match l with
  | [] => (f, [], Success)
  | n :: r =>
    if negb (beq (ext n) (str ".cddl")) then generateFiles X C O cwd b dir r f
    else
      match ensureOut O f cwd (bOut b) with
      | (f1, Some e) => (f1, [], Failure e)
      | (f1, None) =>
        match pathOf cwd (bOut b) with
        | None => (f1, [], Failure EMkdir)      (* not reached: [ensureOut] fails on "" *)
        | Some out =>
          match generateFile X C O (bPackage b) (dir ++ [n]) (out ++ [outName n]) f1 with
          | (f2, o, Success) => let '(f3, o', e) := generateFiles X C O cwd b dir r f2 in (f3, o ++ o', e)
          | r => r
          end
        end
      end
  end.

(** generate.go:62-94, one build; a nil build is dereferenced. *)
Definition generateBuild (X : Ext) (C : CliExt) (O : OsExt) (cwd : path) (b : option build) (f : fs) : run :=
  match b with
  | None => (f, [], Crash)
  | Some b =>
    match stat O f cwd (bSource b), pathOf cwd (bSource b) with
    | SDir, Some dir =>
      match readDir O f dir with
      | None => (f, [], Failure EList)
      | Some l => generateFiles X C O cwd b dir l f
      end
    | SFile, _ => (f, [], Failure ENotDir)
    | _, _ => (f, [], Failure EStat)
    end
  end.

Fixpoint generateBuilds (X : Ext) (C : CliExt) (O : OsExt) (cwd : path) (l : list (option build)) (f : fs) : run :=
  match l with
  | [] => (f, [], Success)
  | b :: r =>
    match generateBuild X C O cwd b f with
    | (f1, o, Success) => let '(f2, o', e) := generateBuilds X C O cwd r f1 in (f2, o ++ o', e)
    | r => r
    end
  end.

(** config/config.go:95-116, [LoadConfig]. *)
Definition loadConfig (C : CliExt) (O : OsExt) (f : fs) (p : path) : cmdErr + config :=
  if oRead O p || blocked f p then inl ERead
  else match look f p with
       | None => inl ERead
       | Some e =>
         let decode (d : bytes -> option config) :=
           match e with
           | EDir => inl EDecode
           | EFile c => match d c with Some cf => inr cf | None => inl EDecode end
           end in
         let b := last p [] in
         if beq b (str "cddlc.json") then decode (cJson C)
         else if beq b (str "cddlc.yaml") then decode (cYaml C)
         else inl EBase
       end.

(** filepath.Glob's pattern characters: '*', '?', '[' and '\'. *)
Definition hasMeta (c : bytes) : bool := existsb (fun b => (b =? 42) || (b =? 63) || (b =? 91) || (b =? 92)) c.

(** filepath.Glob(filepath.Join(dir, "cddlc.*")); a directory that cannot be listed has
    no matches. *)
Definition globConfig (C : CliExt) (O : OsExt) (f : fs) (dir : path) : option (list path) :=
  if existsb hasMeta dir then cGlob C f dir
  else Some (match statP O f dir false, readDir O f dir with
             | SDir, Some l => map (fun n => dir ++ [n]) (filter (fun n => hasPrefix n (str "cddlc.")) l)
             | _, _ => []
             end).

(** generate.go:99-110, [loadConfigFromDir]; [inr None] is errNoConfiguration. *)
Definition loadConfigFromDir (C : CliExt) (O : OsExt) (f : fs) (dir : path) : cmdErr + option config :=
  match globConfig C O f dir with
  | None => inl EGlob
  | Some [] => inr None
  | Some (p :: _) => match loadConfig C O f p with inl e => inl e | inr c => inr (Some c) end
  end.

(** generate.go:46-97, [GenerateCmd]; [wd] is the result of os.Getwd. The fallback notice
    on stdout is left out. *)
Definition generateCmd (X : Ext) (C : CliExt) (O : OsExt) (wd : option path) (f : fs) : run :=
  match wd with
  | None => (f, [], Failure EGetwd)
  | Some cwd =>
    match loadConfigFromDir C O f cwd with
    | inl e => (f, [], Failure e)
    | inr c => generateBuilds X C O cwd (cfBuilds (match c with Some c => c | None => defaultConfig end)) f
    end
  end.

(** ** init *)

(** init.go:41-46: the JSON text of the default configuration, with tabs. *)
Definition defaultJson : bytes :=
  str "{" ++ 10 :: 9 :: str """version"": ""1""," ++ 10 :: 9 :: str """plugins"": []," ++ 10 :: 9 :: str """builds"": [" ++
  10 :: 9 :: 9 :: str "{" ++ 10 :: 9 :: 9 :: 9 :: str """package"": """"," ++ 10 :: 9 :: 9 :: 9 :: str """src"": "".""," ++
  10 :: 9 :: 9 :: 9 :: str """output"": ""dist/""" ++ 10 :: 9 :: 9 :: str "}" ++ 10 :: 9 :: str "]," ++
  10 :: 9 :: str """options"": null" ++ 10 :: str "}" ++ [10].

(** init.go:16-48, [getFileHandle] and [InitCmd]. *)
Definition initCmd (O : OsExt) (wd : option path) (f : fs) : fs * outcome :=
  match wd with
  | None => (f, Failure EGetwd)
  | Some cwd =>
    let p := cwd ++ [str "cddlc.json"] in
    match statP O f p false with
    | SDir | SFile => (f, Failure EExists)
    | SErr => (f, Failure EStat)
    | SNotExist =>
      match openWrite O false f p with
      | None => (f, Failure EOpen)
      | Some f1 => if oWrite O p then (f1, Failure EWrite) else (append f1 p defaultJson, Success)
      end
    end
  end.

(** ** lex and parse *)

(** commands.go:52, one line of the lex command. *)
Definition tokenLine (t : tokInfo) : bytes :=
  posString (tPos t) ++ str ": " ++ tokenString (tTok t) ++ str " -> " ++ tLit t ++ [10].

(** commands.go:38-65, [LexerCmd]: the lines printed and the outcome. The calls of Scan
    needed are at most one more than the length (C01). *)
Definition lexCmd (X : Ext) (O : OsExt) (f : fs) (args : list path) : list bytes * outcome :=
  match args with
  | [p] =>
    match readFile O f p with
    | None => ([], Failure ERead)
    | Some s =>
      match scanAll X (S (length s)) s with
      | Ok ts =>
        let illegals := zlen (filter (fun t => teq (tTok t) ILLEGAL) ts) in
        (map tokenLine ts, if 0 <? illegals then Failure (EIllegal illegals) else Success)
      | r => ([], ended r)
      end
    end
  | _ => ([], Failure EArgs)
  end.

(** commands.go:67-96, [ParseCmd]: the reports on stderr, the text on stdout if the tree
    can be encoded, and the outcome. *)
Definition parseCmd (X : Ext) (C : CliExt) (O : OsExt) (f : fs) (args : list path) : list bytes * option bytes * outcome :=
  match args with
  | [p] =>
    match readFile O f p with
    | None => ([], None, Failure ERead)
    | Some s =>
      match parse X s with
      | Ok ((root, ds), _) =>
        match errorStringer C s (match ds with Some l => l | None => [] end) with
        | Ok outs =>
          match cMarshal C root with
          | None => (outs, None, Failure EMarshal)
          | Some t => (outs, Some t, Success)
          end
        | r => ([], None, ended r)
        end
      | r => ([], None, ended r)
      end
    end
  | _ => ([], None, Failure EArgs)
  end.
