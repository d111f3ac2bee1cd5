(** transforms/codegen/golang/*.go: the Go code generator. *)
From Coq Require Import String.
From Verif Require Import Base Token Strconv Ast.
Open Scope string_scope.
Open Scope list_scope.
Open Scope Z_scope.

(** What the generator takes from elsewhere: [strcase.ToCamel], [token.IsIdentifier],
    [strings.ToLower], [strconv.FormatFloat(f, 'f', -1, 64)] on the bits of a float, and
    [format.Node] on a package name and declarations ([None]: it gives an error). Releases
    of go/ast differ in whether [SortImports] rebuilds [File.Imports] from the
    declarations; [gRebuilds] says which one it is. *)
Record GenExt : Type := mkGenExt {
  gToCamel : bytes -> bytes;
  gIsIdent : bytes -> bool;
  gToLower : bytes -> bytes;
  gFmtFloat : Z -> bytes;
  gRebuilds : bool
}.

(** The part of go/ast that is built. *)
Inductive gexpr : Type :=
| GIdent (name : bytes)
| GBasic (value : bytes)                                    (* BasicLit; its kind is not printed *)
| GSlice (elt : gexpr)                                      (* ArrayType without length *)
| GStruct (fields : list (list bytes * gexpr * option bytes)).  (* names, type, tag *)

Definition gfield : Type := list bytes * gexpr * option bytes.

(** What ends up in [structure.node]. *)
Inductive gnode : Type :=
| GExpr (e : gexpr)
| GField (f : gfield)
| GComment (text : bytes)
| GFields (l : list gfield).                                (* FieldList *)

(** A call [x.sel(args)] built by [addValidatorCall] (gen.go:34-53). *)
Record gcall : Type := mkCall { cX : bytes; cSel : bytes; cArgs : list bytes }.

(** gen.go:17-22, [structure]. *)
Record structure : Type := mkStruct { sNode : gnode; sVals : list gcall }.

(** gen.go:28-32, [newStructure]. *)
Definition newStructure (n : gnode) : structure := mkStruct n [].

(** gen.go:24-26, [Embed]. *)
Definition embed (s em : structure) : structure := mkStruct (sNode s) (sVals s ++ sVals em).

(** Declarations of the generated file. *)
Inductive gdecl : Type :=
| GVar (doc name : bytes) (value : gexpr)
| GType (doc name : bytes) (typ : gexpr)
| GMethod (doc recv recvType : bytes) (calls : list gcall)  (* [Valid]; the calls, then [return nil] *)
| GImport (paths : list bytes).

(** gen.go:59-67, [Generator]. *)
Record generator : Type := mkGen {
  gPkg : bytes;
  gImports : list bytes;        (* imports *)
  gFileImports : list bytes;    (* file.Imports *)
  gDecls : list gdecl           (* file.Decls *)
}.

(** gen.go:112-127, [NewGenerator]. *)
Definition newGenerator (pkg : bytes) : generator := mkGen pkg [] [] [].

(** gen.go:14, with the quotes of gen.go:102. *)
Definition VALIDATOR_PKG : bytes := 34 :: str "github.com/HannesKimara/cddlc/runtime/validators" ++ [34].

(** gen.go:92-107, [addImport] with no name, the only use. *)
Definition addImport (path : bytes) (g : generator) : generator :=
  mkGen (gPkg g) (gImports g ++ [path]) (gFileImports g) (gDecls g).

Definition addDecl (d : gdecl) (g : generator) : generator :=
  mkGen (gPkg g) (gImports g) (gFileImports g) (gDecls g ++ [d]).

(** [strings.TrimLeft(s, "$")]. *)
Fixpoint trimDollar (s : bytes) : bytes :=
  match s with c :: r => if c =? 36 then trimDollar r else s | [] => [] end.

(** gen_identifiers.go:18-37, [transpileIdentifier]: the name. *)
Definition transpileIdentifier (X : GenExt) (i : ident) : res bytes :=
  let formatted := if isSocket i || isPlug i then trimDollar (iName i) else gToCamel X (iName i) in
  if gIsIdent X formatted then Ok formatted
  else match parseInt formatted with
       | inl _ => Panic
       | inr _ => Ok (str "IntKey_" ++ formatted)
       end.

(** The results of the [transpile] functions that return a structure and an error. *)
Inductive tout : Type :=
| TOk (s : structure)
| TErr
| TNil.      (* neither a structure nor an error *)

(** The type switch of gen_operator.go:31-40, after [transpileNode] succeeded. *)
Definition sizable (n : node) : bool :=
  match typeOf n with
  | Some KUintType | Some KBstrType | Some KBytesType | Some KTstrType => true
  | _ => false
  end.

Definition okExpr (e : gexpr) (g : generator) : res (tout * generator) := Ok (TOk (newStructure (GExpr e)), g).

(** [transpileNode], gen_grouped.go:227-269, with the functions it calls. *)
Fixpoint transpileNode (X : GenExt) (n : node) (g : generator) {struct n} : res (tout * generator) :=
  (* gen_grouped.go:206-225, [transpileEntry] *)
  let entry := fun (name : ident) (value : node) (g : generator) =>
    i <- transpileIdentifier X name;;
    '(r, g) <- transpileNode X value g;;
    match r with
    | TOk s =>
        match sNode s with
        | GExpr e => Ok (TOk (embed (newStructure (GField ([i], e, None))) s), g)
        | _ => Panic
        end
    | TErr => Ok (TErr, g)
    | TNil => Panic
    end in
  (* gen_operator.go:48-56, [transpileNMOccurence] *)
  let occurrence := fun (item : node) (g : generator) =>
    '(r, g) <- transpileNode X item g;;
    match r with
    | TOk s => match sNode s with GExpr e => Ok (GSlice e, g) | _ => Panic end
    | _ => Panic
    end in
  (* gen_grouped.go:132-171, [transpileGroupLike] *)
  let groupLike :=
    (fix go (l : list node) (acc : list gfield) (g : generator) : res (tout * generator) :=
       match l with
       | [] => Ok (TOk (newStructure (GFields acc)), g)
       | NEntry _ name value _ :: l =>
           '(r, g) <- (i <- transpileIdentifier X name;;
                       '(r, g) <- transpileNode X value g;;
                       match r with
                       | TOk s => match sNode s with GExpr e => Ok (Some ([i], e, None), g) | _ => Panic end
                       | _ => Ok (None, g)
                       end);;
           match r with
           | Some f => go l (acc ++ [f]) g
           | None => Panic                                     (* 139-141 *)
           end
       | NOptional _ _ item :: l =>
           '(r, g) <- transpileNode X item g;;
           match r with
           | TOk s =>
               match sNode s with
               | GField (names, e, _) => go l (acc ++ [(names, e, Some (str "`cbor:"",omitempty""`"))]) g
               | _ => Ok (TNil, g)                             (* 152-154 *)
               end
           | TErr => Ok (TErr, g)
           | TNil => Panic
           end
       | NIdentifier i :: l => t <- transpileIdentifier X i;; go l (acc ++ [([], GIdent t, None)]) g
       | NNMOccurrence _ _ _ _ item :: l => '(e, g) <- occurrence item g;; go l (acc ++ [([], e, None)]) g
       | _ => Panic                                            (* 163-165; also nil pointers *)
       end) in
  match n with
  | NNil => Ok (TErr, g)                                       (* 228-230 *)
  | NGroup _ l =>                                              (* 173-185, [transpileGroup] *)
      '(r, g) <- groupLike l [] g;;
      match r with
      | TOk s => match sNode s with
                 | GFields fs => Ok (TOk (embed (newStructure (GExpr (GStruct fs))) s), g)
                 | _ => Panic
                 end
      | TErr => Ok (TErr, g)
      | TNil => Panic                                          (* fl.node with fl nil *)
      end
  | NArray _ l =>                                              (* 187-204, [transpileArray] *)
      '(r, g) <- groupLike l [] g;;
      match r with
      | TOk s => match sNode s with
                 | GFields fs => okExpr (GStruct (([str "_"], GStruct [], Some (str "`cbor:"",toarray""`")) :: fs)) g
                 | _ => Panic
                 end
      | TErr => Ok (TErr, g)
      | TNil => Panic
      end
  | NEntry _ name value _ => entry name value g
  | NBooleanType _ _ => okExpr (GIdent (str "bool")) g         (* gen_base_types.go:41-45 *)
  | NIdentifier i => t <- transpileIdentifier X i;; okExpr (GIdent t) g
  | NTstrType _ _ => okExpr (GIdent (str "string")) g          (* gen_base_types.go:9-13 *)
  | NBytesType _ _ => okExpr (GSlice (GIdent (str "byte"))) g  (* gen_base_types.go:15-21 *)
  | NComment c => Ok (TOk (newStructure (GComment (cText c))), g)  (* gen_literals.go:32-36 *)
  | NNullType _ _ => okExpr (GIdent (str "nil")) g             (* gen_base_types.go:23-27 *)
  | NIntegerType _ _ => okExpr (GIdent (str "int")) g          (* gen_base_types.go:29-33 *)
  | NUintType _ _ => okExpr (GIdent (str "uint")) g            (* gen_base_types.go:35-39 *)
  | NIntegerLiteral _ _ v => okExpr (GBasic (fmtD v)) g        (* gen_literals.go:25-30 *)
  | NBooleanLiteral _ b => okExpr (GIdent (str (if b then "true" else "false"))) g  (* gen_literals.go:38-42 *)
  | NTextLiteral _ _ s => okExpr (GBasic s) g                  (* gen_literals.go:11-16 *)
  | NFloatLiteral _ _ b => okExpr (GBasic (gFmtFloat X b)) g   (* gen_literals.go:18-23 *)
  | NNMOccurrence _ _ _ _ item => '(e, g) <- occurrence item g;; okExpr e g
  | NSizeOp _ _ size ty =>                                     (* gen_operator.go:12-46, [transformSizeOp] *)
      match typeOf size with
      | Some KIdentifier => Panic                              (* 18-20 *)
      | _ =>
          '(r, g) <- transpileNode X ty g;;
          match r with
          | TOk s =>
              if sizable ty
              then match size with
                   | NIntegerLiteral _ _ v =>
                       Ok (TOk (mkStruct (sNode s) [mkCall (str "validators") (str "CheckSize") [str "self"; fmtD v]]),
                           addImport VALIDATOR_PKG g)
                   | _ => Panic                                (* size.Literal with size nil *)
                   end
              else Panic                                       (* 38-39 *)
          | TErr => Ok (TErr, g)
          | TNil => Panic
          end
      end
  | NTypedNil k =>                                             (* the cases that do not look at the node *)
      match k with
      | KBooleanType => okExpr (GIdent (str "bool")) g
      | KTstrType => okExpr (GIdent (str "string")) g
      | KBytesType => okExpr (GSlice (GIdent (str "byte"))) g
      | KNullType => okExpr (GIdent (str "nil")) g
      | KIntegerType => okExpr (GIdent (str "int")) g
      | KUintType => okExpr (GIdent (str "uint")) g
      | _ => Panic
      end
  | _ => Panic                                                 (* 266-267 *)
  end.

(** gen_grouped.go:34, the literal kinds. *)
Definition literalKind (n : node) : bool :=
  match typeOf n with
  | Some KBooleanLiteral | Some KFloatLiteral | Some KIntegerLiteral | Some KTextLiteral | Some KUintLiteral => true
  | _ => false
  end.

(** gen_grouped.go:111-117: every statement holds the address of the one loop variable
    (the module is built with the loop semantics of go 1.21, go.mod:3), so all of them
    are the last call once the loop is over. *)
Definition bundleCalls (vs : list gcall) : list gcall :=
  match vs with
  | [] => []
  | v :: r => map (fun _ => last r v) vs
  end.

(** gen_grouped.go:76-130, [bundleValidators]. *)
Definition bundleValidators (X : GenExt) (vs : list gcall) (name : ident) : res gdecl :=
  t <- transpileIdentifier X name;;
  Ok (GMethod (10 :: str "// Valid evaluates type constraints on " ++ iName name ++ str " and returns nil if valid " ++ 10 ::
               str "// else it returns a list of validation errors")
              (gToLower X (iName name)) t (bundleCalls vs)).

(** gen_grouped.go:57. *)
Definition ruleDoc (name : bytes) : bytes := 10 :: str "// (cddlc) Ident: " ++ name ++ [10].

(** gen_grouped.go:14-74, [Visit]. Logging is left out. *)
Fixpoint visit (X : GenExt) (n : node) (g : generator) : res generator :=
  match n with
  | NRule _ name value _ =>
      '(r, g) <- transpileNode X value g;;
      match r with
      | TOk s =>
          match sNode s with
          | GExpr e =>
              t <- transpileIdentifier X name;;
              let g := addDecl (if literalKind value then GVar (ruleDoc (iName name)) t e else GType (ruleDoc (iName name)) t e) g in
              d <- bundleValidators X (sVals s) name;;
              Ok (addDecl d g)
          | _ => Panic
          end
      | _ => Panic
      end
  | NCDDL _ l =>
      (fix all (l : list node) (g : generator) : res generator :=
         match l with [] => Ok g | r :: l => g <- visit X r g;; all l g end) l g
  | NTypedNil KRule | NTypedNil KCDDL => Panic
  | _ => Ok g
  end.

(** gen.go:70-85, [String]: the generator afterwards; the text is [format.Node] of its
    package and declarations. *)
Definition genString (X : GenExt) (g : generator) : generator :=
  let imports := gFileImports g ++ gImports g in
  let imports := if gRebuilds X
                 then concat (map (fun d => match d with GImport l => l | _ => [] end) (gDecls g))
                 else imports in
  mkGen (gPkg g) (gImports g) imports
        (match imports with [] => gDecls g | _ => GImport imports :: gDecls g end).

(** options.go:13-18, [Options.Valid]: the package variable [converters] is never
    assigned, because the [init] of gen_identifiers.go:39-44 declares its own. *)
Definition converters : list (bytes * (bytes -> bytes)) := [].
Definition optionsValid (caseConversion : bytes) : bool :=
  existsb (fun c => beq (fst c) caseConversion) converters.
