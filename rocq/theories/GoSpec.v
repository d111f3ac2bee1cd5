(** The rules of the Go language specification that decide whether the compiler accepts a
    file of the shape the generator produces (Codegen.v, [gdecl]): package clause, imports,
    types, variables and methods [Valid]. They are the rules for files that declare no
    predeclared identifier; the theorems about them exclude such files. *)
From Coq Require Import String Relations.
From Verif Require Import Base Codegen.
Open Scope string_scope.
Open Scope list_scope.
Open Scope Z_scope.

(** ** Scopes *)

(** The universe block: types that may be used anywhere, those of them that are interfaces, and
    the other names. *)
Definition universeTypes : list bytes := map str
  ["any"; "bool"; "byte"; "complex64"; "complex128"; "error"; "float32"; "float64"; "int"; "int8"; "int16"; "int32"; "int64";
   "rune"; "string"; "uint"; "uint8"; "uint16"; "uint32"; "uint64"; "uintptr"].
Definition interfaces : list bytes := map str ["any"; "error"].
Definition universeRest : list bytes := map str
  ["comparable"; "true"; "false"; "iota"; "nil"; "append"; "cap"; "clear"; "close"; "complex"; "copy"; "delete"; "imag"; "len";
   "make"; "max"; "min"; "new"; "panic"; "print"; "println"; "real"; "recover"].

(** Names a file of this kind should not declare: those of the universe, the blank identifier,
    the two names reserved for functions, and the name of the imported package. *)
Definition reserved : list bytes := universeTypes ++ universeRest ++ map str ["_"; "init"; "main"; "validators"].

(** What a file declares. *)
Definition isTypeIn (ds : list gdecl) (n : bytes) : Prop := exists doc e, In (GType doc n e) ds.
Definition isVarIn (ds : list gdecl) (n : bytes) : Prop := exists doc e, In (GVar doc n e) ds.
Definition declared (d : gdecl) : list bytes :=
  match d with GVar _ n _ | GType _ n _ => [n] | _ => [] end.

(** The names of types. *)
Definition typeName (ds : list gdecl) (n : bytes) : Prop := isTypeIn ds n \/ In n universeTypes.

(** ** Types *)

(** The names of the fields of a struct; an embedded field is named after its type, blank
    fields have no name. *)
Definition fieldNames (fs : list gfield) : list bytes :=
  filter (fun n => negb (beq n (str "_")))
    (concat (map (fun f : gfield => match f with
                  | ([], GIdent n, _) => [n]
                  | (ns, _, _) => ns
                  end) fs)).

(** Well-formed types, where [I] are the identifiers and [T] the names of types: a literal or
    a name of something else is none, and an embedded field is a type name. *)
Fixpoint typeOk (I T : bytes -> Prop) (e : gexpr) : Prop :=
  match e with
  | GIdent n => T n
  | GBasic _ => False
  | GSlice e => typeOk I T e
  | GStruct fs =>
      NoDup (fieldNames fs) /\
      (fix all (fs : list gfield) : Prop :=
         match fs with
         | [] => True
         | (ns, e, _) :: fs => Forall I ns /\ (ns = [] -> exists n, e = GIdent n) /\ typeOk I T e /\ all fs
         end) fs
  end.

(** The types a type contains: it has no size without theirs (slices break the chain). *)
Fixpoint inside (e : gexpr) : list bytes :=
  match e with
  | GIdent n => [n]
  | GBasic _ | GSlice _ => []
  | GStruct fs =>
      (fix all (fs : list gfield) : list bytes :=
         match fs with [] => [] | (_, e, _) :: fs => inside e ++ all fs end) fs
  end.

Definition contains (ds : list gdecl) (a b : bytes) : Prop := exists doc e, In (GType doc a e) ds /\ In b (inside e).

(** The underlying type of a declared type, and the types whose underlying type is an
    interface. *)
Inductive Underlying (ds : list gdecl) : bytes -> gexpr -> Prop :=
| ul_literal : forall doc n e, In (GType doc n e) ds -> (forall m, e <> GIdent m) -> Underlying ds n e
| ul_name : forall doc n m e, In (GType doc n (GIdent m)) ds -> Underlying ds m e -> Underlying ds n e.

Inductive Interface (ds : list gdecl) : bytes -> Prop :=
| if_universe : forall n, In n interfaces -> Interface ds n
| if_name : forall doc n m, In (GType doc n (GIdent m)) ds -> Interface ds m -> Interface ds n.

(** ** Expressions *)

Definition valueOk (e : gexpr) : Prop :=
  match e with
  | GBasic _ => True
  | GIdent n => n = str "true" \/ n = str "false"
  | _ => False
  end.

(** The only function that is called: [validators.CheckSize(val interface{}, size uint) bool]
    (runtime/validators/validators.go:44). Its package is imported, its first argument a
    variable in scope, its second a constant of type uint. *)
Definition callOk (ds : list gdecl) (recv : bytes) (c : gcall) : Prop :=
  cX c = str "validators" /\ (exists l, In (GImport l) ds /\ In VALIDATOR_PKG l) /\ cSel c = str "CheckSize" /\
  exists a v, Codegen.cArgs c = [a; fmtD v] /\ (a = recv \/ isVarIn ds a) /\ 0 <= v < 2 ^ 64.

(** ** Files *)

(** [twice] tells whether a file whose tree imports a package more than once is accepted; that
    depends on how go/printer prints such an import declaration. *)
Record GoOk (I : bytes -> Prop) (twice : bool) (pkg : bytes) (ds : list gdecl) : Prop := mkGoOk {
  go_package : I pkg /\ pkg <> str "_";
  go_names : Forall I (concat (map declared ds));
  go_distinct : NoDup (concat (map declared ds));
  go_values : forall doc n e, In (GVar doc n e) ds -> valueOk e;
  go_types : forall doc n e, In (GType doc n e) ds -> typeOk I (typeName ds) e;
  go_finite : forall n, ~ clos_trans bytes (contains ds) n n;
  go_receiver : forall doc r t cs, In (GMethod doc r t cs) ds -> I r /\ isTypeIn ds t /\ ~ Interface ds t;
  go_field : forall doc r t cs fs, In (GMethod doc r t cs) ds -> Underlying ds t (GStruct fs) -> ~ In (str "Valid") (fieldNames fs);
  go_calls : forall doc r t cs c, In (GMethod doc r t cs) ds -> In c cs -> callOk ds r c;
  go_used : forall l p, In (GImport l) ds -> In p l ->
    p = VALIDATOR_PKG /\ exists doc r t cs c, In (GMethod doc r t cs) ds /\ In c cs /\ cX c = str "validators";
  go_once : forall l, In (GImport l) ds -> twice = true \/ (length l <= 1)%nat
}.
