(** Properties C36-C40, C52-C56: the Go code generator. *)
From Coq Require Import String.
From Verif Require Import Base Token Strconv Ast Codegen Walk Props_Walk.
Open Scope string_scope.
Open Scope list_scope.
Open Scope Z_scope.

(** ** Specification *)

(** The Go name of a CDDL name: sockets and plugs lose their dollars, other names are
    put in camel case; what is not a Go identifier must be a number. *)
Inductive GoBase (X : GenExt) : bytes -> bytes -> Prop :=
| GB_dollar : forall k w, hd 0 w <> 36 -> GoBase X (repeat 36 (S k) ++ w) w
| GB_plain : forall w, hd 0 w <> 36 -> GoBase X w (gToCamel X w).

Inductive GoName (X : GenExt) : bytes -> bytes -> Prop :=
| GN_ident : forall w b, GoBase X w b -> gIsIdent X b = true -> GoName X w b
| GN_number : forall w b v, GoBase X w b -> gIsIdent X b = false -> parseInt b = inr v -> GoName X w (str "IntKey_" ++ b).

(** The Go type of a CDDL base type. *)
Definition baseType (k : kind) : option gexpr :=
  match k with
  | KBooleanType => Some (GIdent (str "bool"))
  | KTstrType => Some (GIdent (str "string"))
  | KBytesType => Some (GSlice (GIdent (str "byte")))
  | KNullType => Some (GIdent (str "nil"))
  | KIntegerType => Some (GIdent (str "int"))
  | KUintType => Some (GIdent (str "uint"))
  | _ => None
  end.

Definition OMITEMPTY : bytes := str "`cbor:"",omitempty""`".
Definition TOARRAY : gfield := ([str "_"], GStruct [], Some (str "`cbor:"",toarray""`")).

(** [TypeIs X n e k]: the node [n] is generated as [e] and has [k] size constraints.
    [EntryIs]: the same for the members of a group. These describe the supported
    fragment: no other node is generated. *)
Inductive TypeIs (X : GenExt) : node -> gexpr -> nat -> Prop :=
| T_base : forall n k e, typeOf n = Some k -> baseType k = Some e -> TypeIs X n e 0
| T_int : forall p t v, TypeIs X (NIntegerLiteral p t v) (GBasic (fmtD v)) 0
| T_true : forall r, TypeIs X (NBooleanLiteral r true) (GIdent (str "true")) 0
| T_false : forall r, TypeIs X (NBooleanLiteral r false) (GIdent (str "false")) 0
| T_text : forall p t s, TypeIs X (NTextLiteral p t s) (GBasic s) 0
| T_float : forall r t b, TypeIs X (NFloatLiteral r t b) (GBasic (gFmtFloat X b)) 0
| T_name : forall i w, GoName X (iName i) w -> TypeIs X (NIdentifier i) (GIdent w) 0
| T_group : forall p l fs k, EntriesAre X l fs k -> TypeIs X (NGroup p l) (GStruct fs) k
| T_array : forall p l fs k, EntriesAre X l fs k -> TypeIs X (NArray p l) (GStruct (TOARRAY :: fs)) k
| T_many : forall p t a b i e k, TypeIs X i e k -> TypeIs X (NNMOccurrence p t a b i) (GSlice e) k
| T_size : forall p t q u v ty e, In (typeOf ty) [Some KUintType; Some KBytesType; Some KTstrType] -> TypeIs X ty e 0 ->
    TypeIs X (NSizeOp p t (NIntegerLiteral q u v) ty) e 1
with EntryIs (X : GenExt) : node -> gfield -> nat -> Prop :=
| E_member : forall p i v c w e k, GoName X (iName i) w -> TypeIs X v e k -> EntryIs X (NEntry p i v c) ([w], e, None) k
| E_optional : forall q t p i v c w e k, GoName X (iName i) w -> TypeIs X v e k ->
    EntryIs X (NOptional q t (NEntry p i v c)) ([w], e, Some OMITEMPTY) k
| E_name : forall i w, GoName X (iName i) w -> EntryIs X (NIdentifier i) ([], GIdent w, None) 0
| E_many : forall p t a b i e k, TypeIs X i e k -> EntryIs X (NNMOccurrence p t a b i) ([], GSlice e, None) k
with EntriesAre (X : GenExt) : list node -> list gfield -> nat -> Prop :=
| EA_nil : EntriesAre X [] [] 0
| EA_cons : forall n l f fs k m, EntryIs X n f k -> EntriesAre X l fs m -> EntriesAre X (n :: l) (f :: fs) (k + m).

Scheme TypeIs_ind2 := Induction for TypeIs Sort Prop
  with EntryIs_ind2 := Induction for EntryIs Sort Prop
  with EntriesAre_ind2 := Induction for EntriesAre Sort Prop.
Combined Scheme gen_ind from TypeIs_ind2, EntryIs_ind2, EntriesAre_ind2.

(** The checks of a value: one, when it is a size constraint itself. *)
Definition checksOf (n : node) : list gcall :=
  match n with
  | NSizeOp _ _ (NIntegerLiteral _ _ v) _ => [mkCall (str "validators") (str "CheckSize") [str "self"; fmtD v]]
  | _ => []
  end.

(** ** Names *)

Lemma trim_spec : forall k w, hd 0 w <> 36 -> trimDollar (repeat 36 k ++ w) = w.
Proof. induction k as [|k IH]; intros w H; simpl; auto. destruct w as [|c w]; auto. simpl in *. destruct (c =? 36) eqn:E; auto. lia. Qed.

Lemma dollars : forall w, exists k r, w = repeat 36 k ++ r /\ hd 0 r <> 36.
Proof.
  induction w as [|c w (k & r & -> & H)]; [exists 0%nat, []; simpl; split; auto; lia|].
  destruct (Z.eq_dec c 36) as [-> |N]; [exists (S k), r; auto|]. exists 0%nat, (c :: repeat 36 k ++ r). auto.
Qed.

Lemma socketOrPlug : forall i, isSocket i || isPlug i = (hd 0 (iName i) =? 36).
Proof.
  intros [p w]. unfold isSocket, isPlug. simpl. destruct w as [|a [|b w]]; simpl; auto; destruct (a =? 36) eqn:E1; simpl; auto. destruct (b =? 36); auto.
Qed.

Lemma goBase_fun : forall X w b, GoBase X w b -> b = if hd 0 w =? 36 then trimDollar w else gToCamel X w.
Proof.
  intros X w b H. destruct H as [k w H|w H].
  - simpl hd. rewrite trim_spec by auto. reflexivity.
  - destruct (hd 0 w =? 36) eqn:E; auto. lia.
Qed.

Lemma goBase_total : forall X w, GoBase X w (if hd 0 w =? 36 then trimDollar w else gToCamel X w).
Proof.
  intros X w. destruct (dollars w) as (k & r & -> & H). destruct k as [|k].
  - simpl app. destruct (hd 0 r =? 36) eqn:E; [lia|]. now constructor.
  - rewrite trim_spec by auto. simpl hd. now constructor.
Qed.

Lemma name_iff : forall X i w, transpileIdentifier X i = Ok w <-> GoName X (iName i) w.
Proof.
  intros X i w. unfold transpileIdentifier. rewrite socketOrPlug. pose proof (goBase_total X (iName i)) as HB.
  split.
  - destruct (gIsIdent X _) eqn:E; [intros H; injection H as <-; now constructor|].
    destruct (parseInt _) eqn:E2; [discriminate|]. intros H; injection H as <-. eapply GN_number; eauto.
  - intros H. destruct H as [w b H1 H2|w b v H1 H2 H3]; pose proof (goBase_fun _ _ _ H1); subst b; rewrite H2; auto. rewrite H3. reflexivity.
Qed.

Lemma name_cases : forall X i, (exists w, transpileIdentifier X i = Ok w /\ GoName X (iName i) w) \/ transpileIdentifier X i = Panic.
Proof.
  intros X i. pose proof (name_iff X i) as H. destruct (transpileIdentifier X i) as [w| | |] eqn:E; auto.
  - left. exists w. split; auto. now apply H.
  - unfold transpileIdentifier in E. destruct (gIsIdent X _); [discriminate|]. destruct (parseInt _); discriminate.
  - unfold transpileIdentifier in E. destruct (gIsIdent X _); [discriminate|]. destruct (parseInt _); discriminate.
Qed.

Theorem C36_names_unique : forall X w a b, GoName X w a -> GoName X w b -> a = b.
Proof. intros X w a b H1 H2. apply (name_iff X (mkIdent zeroPos w)) in H1. apply (name_iff X (mkIdent zeroPos w)) in H2. congruence. Qed.

(** ** The model, one node at a time *)

Definition imports (k : nat) (g : generator) : generator :=
  mkGen (gPkg g) (gImports g ++ repeat VALIDATOR_PKG k) (gFileImports g) (gDecls g).

Lemma imports_0 : forall g, imports 0 g = g.
Proof. intros [a b c d]. unfold imports. simpl. rewrite app_nil_r. reflexivity. Qed.
Lemma imports_add : forall k m g, imports m (imports k g) = imports (k + m) g.
Proof. intros. unfold imports. simpl. rewrite repeat_app, app_assoc. reflexivity. Qed.
Lemma addImport_1 : forall g, addImport VALIDATOR_PKG g = imports 1 g.
Proof. reflexivity. Qed.

(** One member of a group. [Some f]: the field; [None]: the group gives up without panic. *)
Definition member (X : GenExt) (n : node) (g : generator) : res (option gfield * tout * generator) :=
  match n with
  | NEntry _ name value _ =>
      i <- transpileIdentifier X name;;
      '(r, g) <- transpileNode X value g;;
      match r with
      | TOk s => match sNode s with GExpr e => Ok (Some ([i], e, None), TErr, g) | _ => Panic end
      | _ => Panic
      end
  | NOptional _ _ item =>
      '(r, g) <- transpileNode X item g;;
      match r with
      | TOk s => match sNode s with GField (names, e, _) => Ok (Some (names, e, Some OMITEMPTY), TErr, g) | _ => Ok (None, TNil, g) end
      | TErr => Ok (None, TErr, g)
      | TNil => Panic
      end
  | NIdentifier i => t <- transpileIdentifier X i;; Ok (Some ([], GIdent t, None), TErr, g)
  | NNMOccurrence _ _ _ _ item =>
      '(r, g) <- transpileNode X item g;;
      match r with TOk s => match sNode s with GExpr e => Ok (Some ([], GSlice e, None), TErr, g) | _ => Panic end | _ => Panic end
  | _ => Panic
  end.

Fixpoint members (X : GenExt) (l : list node) (acc : list gfield) (g : generator) : res (tout * generator) :=
  match l with
  | [] => Ok (TOk (newStructure (GFields acc)), g)
  | n :: l =>
      '(f, t, g) <- member X n g;;
      match f with Some f => members X l (acc ++ [f]) g | None => Ok (t, g) end
  end.

Lemma group_eq : forall X p l g, transpileNode X (NGroup p l) g =
  ('(r, g) <- members X l [] g;;
   match r with
   | TOk s => match sNode s with GFields fs => Ok (TOk (embed (newStructure (GExpr (GStruct fs))) s), g) | _ => Panic end
   | TErr => Ok (TErr, g)
   | TNil => Panic
   end).
Proof.
  intros X p l g. cbn [transpileNode]. match goal with |- rbind (?f l [] g) _ = _ => enough (E : forall l acc g, f l acc g = members X l acc g) by (rewrite E; reflexivity) end.
  clear. induction l as [|n l IH]; intros acc g; [reflexivity|].
  destruct n; cbn [members member rbind]; try reflexivity.
  - destruct (transpileIdentifier X i); cbn [rbind]; auto.
  - destruct (transpileIdentifier X name); cbn [rbind]; auto. destruct (transpileNode X n g) as [[[s| |] g']| | |]; cbn [rbind]; auto. destruct (sNode s); cbn [rbind]; auto.
  - destruct (transpileNode X n g) as [[[s| |] g']| | |]; cbn [rbind]; auto. destruct (sNode s) as [| [[a b] c] | |]; cbn [rbind]; auto.
  - destruct (transpileNode X n0 g) as [[[s| |] g']| | |]; cbn [rbind]; auto. destruct (sNode s); cbn [rbind]; auto.
Qed.

Lemma array_eq : forall X p l g, transpileNode X (NArray p l) g =
  ('(r, g) <- members X l [] g;;
   match r with
   | TOk s => match sNode s with GFields fs => okExpr (GStruct (TOARRAY :: fs)) g | _ => Panic end
   | TErr => Ok (TErr, g)
   | TNil => Panic
   end).
Proof.
  intros X p l g. cbn [transpileNode]. match goal with |- rbind (?f l [] g) _ = _ => enough (E : forall l acc g, f l acc g = members X l acc g) by (rewrite E; reflexivity) end.
  clear. induction l as [|n l IH]; intros acc g; [reflexivity|].
  destruct n; cbn [members member rbind]; try reflexivity.
  - destruct (transpileIdentifier X i); cbn [rbind]; auto.
  - destruct (transpileIdentifier X name); cbn [rbind]; auto. destruct (transpileNode X n g) as [[[s| |] g']| | |]; cbn [rbind]; auto. destruct (sNode s); cbn [rbind]; auto.
  - destruct (transpileNode X n g) as [[[s| |] g']| | |]; cbn [rbind]; auto. destruct (sNode s) as [| [[a b] c] | |]; cbn [rbind]; auto.
  - destruct (transpileNode X n0 g) as [[[s| |] g']| | |]; cbn [rbind]; auto. destruct (sNode s); cbn [rbind]; auto.
Qed.

(** ** The generator does what [TypeIs] says *)

Lemma gen_complete : forall X,
  (forall n e k, TypeIs X n e k -> forall g, transpileNode X n g = Ok (TOk (mkStruct (GExpr e) (checksOf n)), imports k g)) /\
  (forall n f k, EntryIs X n f k -> forall g, member X n g = Ok (Some f, TErr, imports k g)) /\
  (forall l fs k, EntriesAre X l fs k -> forall acc g, members X l acc g = Ok (TOk (newStructure (GFields (acc ++ fs))), imports k g)).
Proof.
  intros X. apply gen_ind; intros; try (rewrite imports_0; reflexivity).
  - rewrite imports_0. destruct n; try discriminate; injection e0 as <-; try discriminate e1; try (injection e1 as <-; reflexivity).
    match goal with |- context [NTypedNil ?k] => destruct k end; try discriminate e1; injection e1 as <-; reflexivity.
  - rewrite imports_0. cbn [transpileNode]. apply name_iff in g. rewrite g. reflexivity.
  - rewrite group_eq, H. reflexivity.
  - rewrite array_eq, H. reflexivity.
  - cbn [transpileNode]. rewrite H. reflexivity.
  - cbn [transpileNode typeOf]. rewrite H. cbn [rbind].
    assert (E : sizable ty = true) by (unfold sizable; destruct i as [<-|[<-|[<-|[]]]]; reflexivity). rewrite E, imports_0, addImport_1. reflexivity.
  - cbn [member]. apply name_iff in g. rewrite g. cbn [rbind]. rewrite H. reflexivity.
  - cbn [member transpileNode]. apply name_iff in g. rewrite g. cbn [rbind]. rewrite H. reflexivity.
  - rewrite imports_0. cbn [member]. apply name_iff in g. rewrite g. reflexivity.
  - cbn [member]. rewrite H. reflexivity.
  - rewrite imports_0, app_nil_r. reflexivity.
  - cbn [members]. rewrite H. cbn [rbind]. rewrite H0, imports_add, <- app_assoc. reflexivity.
Qed.

(** What a result of [transpileNode] can be. *)
Definition sound (X : GenExt) (n : node) : Prop := forall g,
  match transpileNode X n g with
  | Ok (TOk s, _) =>
      match sNode s with
      | GExpr e => exists k, TypeIs X n e k
      | GField f => exists p i v c w e k, n = NEntry p i v c /\ f = ([w], e, None) /\ GoName X (iName i) w /\ TypeIs X v e k
      | GComment _ => exists c, n = NComment c
      | GFields _ => False
      end
  | Ok (TErr, _) | Panic => True
  | Ok (TNil, _) | Hang | NoFuel => False
  end.

Definition memberSound (X : GenExt) (n : node) : Prop := forall g,
  match member X n g with
  | Ok (Some f, _, _) => exists k, EntryIs X n f k
  | Ok (None, t, _) => t = TErr \/ t = TNil
  | Panic => True
  | _ => False
  end.

Lemma members_sound : forall X l, Forall (memberSound X) l -> forall acc g,
  match members X l acc g with
  | Ok (TOk s, _) => exists fs k, s = newStructure (GFields (acc ++ fs)) /\ EntriesAre X l fs k
  | Ok _ | Panic => True
  | _ => False
  end.
Proof.
  intros X l H. induction H as [|n l HN HL IH]; intros acc g; cbn [members].
  - exists [], 0%nat. rewrite app_nil_r. split; auto. constructor.
  - specialize (HN g). destruct (member X n g) as [[[[f|] t] g']| | |]; cbn [rbind]; auto.
    + destruct HN as (k & HE). specialize (IH (acc ++ [f]) g'). destruct (members X l (acc ++ [f]) g') as [[[s| |] g2]| | |]; auto.
      destruct IH as (fs & m & -> & HA). exists (f :: fs), (k + m)%nat. rewrite <- app_assoc. split; auto. now constructor.
    + destruct HN as [-> | ->]; auto.
Qed.

Lemma gen_sound : forall X n, sound X n /\ memberSound X n.
Proof.
  intros X. assert (HNil : sound X NNil) by (intros g; exact I).
  refine (parts_ind _ _). intros n IH.
  assert (IN : forall v, (exists ps, parts n = Some ps /\ forall x, In x (notNil v) -> In x ps) -> sound X v).
  { intros v (ps & E & HI). destruct (node_nil_dec v) as [-> |NE]; auto. specialize (IH ps E). rewrite Forall_forall in IH.
    apply IH. apply HI. destruct v; simpl; auto; congruence. }
  split.
  - intros g. destruct n; try exact I; cbn [transpileNode okExpr].
    all: try (cbn; eexists; first [apply T_int|apply T_text|apply T_float]; fail).
    all: try (cbn; exists 0%nat; eapply T_base; reflexivity).
    + destruct k; try exact I; cbn; exists 0%nat; eapply T_base; reflexivity.
    + destruct (name_cases X i) as [(w & -> & H)| ->]; cbn; auto. eexists. apply T_name; eauto.
    + cbn. eauto.
    + cbn. destruct b; eexists; [apply T_true|apply T_false].
    + destruct (name_cases X name) as [(w & -> & H)| ->]; cbn [rbind]; auto.
      assert (HS : sound X n) by (apply IN; eexists; split; [reflexivity|]; intros x Hx; simpl; rewrite in_app_iff; auto).
      specialize (HS g). destruct (transpileNode X n g) as [[[s| |] g']| | |]; cbn [rbind]; auto.
      destruct (sNode s) as [e|f|c|l]; auto. cbn. destruct HS as (k & HS). repeat eexists; eauto.
    + assert (HS : sound X n0) by (apply IN; eexists; split; [reflexivity|]; intros x Hx; simpl; rewrite !in_app_iff; auto).
      specialize (HS g). destruct (transpileNode X n0 g) as [[[s| |] g']| | |]; cbn [rbind]; auto.
      destruct (sNode s) as [e|f|c|l]; cbn; auto. destruct HS as (k & HS). exists k. now apply T_many.
    + assert (HS : sound X n2) by (apply IN; eexists; split; [reflexivity|]; intros x Hx; simpl; rewrite !in_app_iff; auto).
      assert (HB : forall r, r = Panic \/ r = ('(r, g) <- transpileNode X n2 g;;
          match r with
          | TOk s =>
              if sizable n2
              then match n1 with
                   | NIntegerLiteral _ _ v =>
                       Ok (TOk (mkStruct (sNode s) [mkCall (str "validators") (str "CheckSize") [str "self"; fmtD v]]), addImport VALIDATOR_PKG g)
                   | _ => Panic
                   end
              else Panic
          | TErr => Ok (TErr, g)
          | TNil => Panic
          end) ->
        match r with
        | Ok (TOk s, _) =>
            match sNode s with
            | GExpr e => exists k, TypeIs X (NSizeOp p t n1 n2) e k
            | GField f => exists q i v c w e k, NSizeOp p t n1 n2 = NEntry q i v c /\ f = ([w], e, None) /\ GoName X (iName i) w /\ TypeIs X v e k
            | GComment _ => exists c, NSizeOp p t n1 n2 = NComment c
            | GFields _ => False
            end
        | Ok (TErr, _) | Panic => True
        | Ok (TNil, _) | Hang | NoFuel => False
        end).
      { intros r [-> | ->]; auto. specialize (HS g). destruct (transpileNode X n2 g) as [[[s| |] g']| | |] eqn:E; cbn [rbind]; auto.
        destruct (sizable n2) eqn:E2; auto. destruct n1; auto. cbn [sNode].
        assert (HT : In (typeOf n2) [Some KUintType; Some KBytesType; Some KTstrType]).
        { destruct n2; try discriminate E2; try discriminate E; simpl; auto. destruct k; try discriminate E2; try discriminate E; simpl; auto. }
        destruct (sNode s) as [e|f|c|l]; auto.
        - destruct HS as (k & HS). exists 1%nat. apply T_size; auto. inversion HS; subst; auto; simpl in HT; intuition discriminate.
        - destruct HS as (q & i & v' & c0 & w & e & k & -> & _). simpl in HT; intuition discriminate.
        - destruct HS as (c0 & ->). simpl in HT; intuition discriminate. }
      destruct (typeOf n1) as [[]|]; first [exact I|apply HB; auto].
    + pose proof (group_eq X p entries g) as E. cbn [transpileNode] in E. rewrite E. clear E.
      assert (HM : Forall (memberSound X) entries) by (specialize (IH entries eq_refl); apply Forall_forall; intros x Hx; rewrite Forall_forall in IH; apply IH; auto).
      pose proof (members_sound X entries HM [] g) as H. destruct (members X entries [] g) as [[[s| |] g']| | |]; cbn [rbind]; auto.
      destruct H as (fs & k & -> & H). cbn. exists k. now apply T_group.
    + pose proof (array_eq X p rules g) as E. cbn [transpileNode] in E. rewrite E. clear E.
      assert (HM : Forall (memberSound X) rules) by (specialize (IH rules eq_refl); apply Forall_forall; intros x Hx; rewrite Forall_forall in IH; apply IH; auto).
      pose proof (members_sound X rules HM [] g) as H. destruct (members X rules [] g) as [[[s| |] g']| | |]; cbn [rbind]; auto.
      destruct H as (fs & k & -> & H). cbn. exists k. now apply T_array.
  - intros g. destruct n; try exact I; cbn [member].
    + destruct (name_cases X i) as [(w & -> & H)| ->]; cbn; auto. eexists. constructor; eauto.
    + destruct (name_cases X name) as [(w & -> & H)| ->]; cbn [rbind]; auto.
      assert (HS : sound X n) by (apply IN; eexists; split; [reflexivity|]; intros x Hx; simpl; rewrite in_app_iff; auto).
      specialize (HS g). destruct (transpileNode X n g) as [[[s| |] g']| | |]; cbn [rbind]; auto.
      destruct (sNode s) as [e|f|c|l]; auto. destruct HS as (k & HS). eexists. constructor; eauto.
    + assert (HS : sound X n) by (apply IN; eexists; split; [reflexivity|]; auto).
      specialize (HS g). destruct (transpileNode X n g) as [[[s| |] g']| | |]; cbn [rbind]; auto.
      destruct (sNode s) as [e|f|c|l]; auto. destruct HS as (q & i & v & c & w & e & k & -> & -> & H1 & H2). eexists. econstructor; eauto.
    + assert (HS : sound X n0) by (apply IN; eexists; split; [reflexivity|]; intros x Hx; simpl; rewrite !in_app_iff; auto).
      specialize (HS g). destruct (transpileNode X n0 g) as [[[s| |] g']| | |]; cbn [rbind]; auto.
      destruct (sNode s) as [e|f|c|l]; cbn; auto. destruct HS as (k & HS). exists k. now constructor.
Qed.

(** ** Files *)

Definition literal (n : node) : Prop :=
  (exists p t v, n = NIntegerLiteral p t v) \/ (exists p t s, n = NTextLiteral p t s) \/
  (exists r t b, n = NFloatLiteral r t b) \/ (exists r b, n = NBooleanLiteral r b).

Definition validDoc (name : bytes) : bytes :=
  [10] ++ str "// Valid evaluates type constraints on " ++ name ++ str " and returns nil if valid " ++ [10] ++
  str "// else it returns a list of validation errors".
Definition declDoc (name : bytes) : bytes := [10] ++ str "// (cddlc) Ident: " ++ name ++ [10].

(** The declarations of one rule: itself and its [Valid] method. *)
Inductive RuleIs (X : GenExt) : ident -> node -> list gdecl -> nat -> Prop :=
| RI_var : forall i v w e k, GoName X (iName i) w -> TypeIs X v e k -> literal v ->
    RuleIs X i v [GVar (declDoc (iName i)) w e; GMethod (validDoc (iName i)) (gToLower X (iName i)) w (checksOf v)] k
| RI_type : forall i v w e k, GoName X (iName i) w -> TypeIs X v e k -> ~ literal v ->
    RuleIs X i v [GType (declDoc (iName i)) w e; GMethod (validDoc (iName i)) (gToLower X (iName i)) w (checksOf v)] k.

(** The declarations of a file: those of its rules, in order, and nothing for comments. *)
Inductive FileIs (X : GenExt) : list node -> list gdecl -> nat -> Prop :=
| FI_nil : FileIs X [] [] 0
| FI_rule : forall p i v c l ds ds' k m, RuleIs X i v ds k -> FileIs X l ds' m -> FileIs X (NRule p i v c :: l) (ds ++ ds') (k + m)
| FI_other : forall n l ds k, (forall p i v c, n <> NRule p i v c) -> (forall p r, n <> NCDDL p r) -> n <> NTypedNil KRule -> n <> NTypedNil KCDDL ->
    FileIs X l ds k -> FileIs X (n :: l) ds k.

Definition add (ds : list gdecl) (k : nat) (g : generator) : generator :=
  mkGen (gPkg g) (gImports g ++ repeat VALIDATOR_PKG k) (gFileImports g) (gDecls g ++ ds).

Lemma literal_iff : forall X n e k, TypeIs X n e k -> (literalKind n = true <-> literal n).
Proof.
  intros X n e k H. unfold literal. split.
  - intros HL. destruct H; try discriminate HL; eauto 8. unfold literalKind in HL. rewrite H in HL. destruct k; try discriminate HL; discriminate H0.
  - intros [(p & t & v & ->)|[(p & t & v & ->)|[(p & t & v & ->)|(p & t & ->)]]]; reflexivity.
Qed.

Lemma bundle_checks : forall n, bundleCalls (checksOf n) = checksOf n.
Proof. intros n. destruct n; try reflexivity. simpl. destruct n1; reflexivity. Qed.

Lemma visit_rule : forall X p i v c g g',
  visit X (NRule p i v c) g = Ok g' <-> exists ds k, RuleIs X i v ds k /\ g' = add ds k g.
Proof.
  intros X p i v c g g'. cbn [visit]. split.
  - intros H. destruct (gen_sound X v) as [HS _]. specialize (HS g).
    destruct (transpileNode X v g) as [[[s| |] g1]| | |] eqn:E; try discriminate H; cbn [rbind] in H.
    destruct (sNode s) as [e|f|cc|l] eqn:ES; try discriminate H. destruct HS as (k & HS).
    pose proof (proj1 (gen_complete X) v e k HS g) as E2. rewrite E in E2. injection E2 as -> ->.
    destruct (name_cases X i) as [(w & E3 & HW)|E3]; rewrite E3 in H; cbn [rbind] in H; [|discriminate H].
    unfold bundleValidators in H. rewrite E3 in H. cbn [rbind sVals] in H. rewrite bundle_checks in H. injection H as <-.
    pose proof (literal_iff X v e k HS) as HL. destruct (literalKind v).
    + eexists _, k. split; [eapply RI_var; eauto; tauto|]. unfold add, addDecl, imports. simpl. rewrite <- app_assoc. reflexivity.
    + eexists _, k. split; [eapply RI_type; eauto; intros K; apply HL in K; discriminate|]. unfold add, addDecl, imports. simpl. rewrite <- app_assoc. reflexivity.
  - intros (ds & k & H & ->).
    destruct H as [i v w e k HW HT HL|i v w e k HW HT HL]; rewrite (proj1 (gen_complete X) v e k HT g); cbn [rbind sNode]; apply name_iff in HW; rewrite HW; cbn [rbind];
      unfold bundleValidators; rewrite HW; cbn [rbind sVals]; rewrite bundle_checks; unfold add, addDecl, imports; simpl; rewrite <- app_assoc;
      pose proof (literal_iff X v e k HT) as HI; destruct (literalKind v); try reflexivity; exfalso.
    + apply HI in HL. discriminate.
    + apply HL, HI. reflexivity.
Qed.

Lemma res_cases : forall X n g, (exists g', visit X n g = Ok g') \/ visit X n g = Panic.
Proof.
  intros X. fix IH 1. intros n g. destruct n; cbn [visit]; eauto.
  - destruct k; eauto.
  - destruct (gen_sound X n) as [HS _]. specialize (HS g). destruct (transpileNode X n g) as [[[s| |] g1]| | |]; cbn [rbind]; try tauto.
    destruct (sNode s); auto. destruct (name_cases X name) as [(w & E3 & HW)|E3]; unfold bundleValidators; rewrite E3; cbn [rbind]; eauto.
  - revert g. induction rules as [|r rules IHr]; intros g; [eauto|]. destruct (IH r g) as [(g' & ->)| ->]; cbn [rbind]; auto.
Qed.

(** Trees without a tree inside, as ParseFile returns them. *)
Definition flat (l : list node) : Prop := forall p r, ~ In (NCDDL p r) l.

Lemma add_add : forall ds ds' k m g, add ds' m (add ds k g) = add (ds ++ ds') (k + m) g.
Proof. intros. unfold add. simpl. rewrite repeat_app, !app_assoc. reflexivity. Qed.
Lemma add_nil : forall g, add [] 0 g = g.
Proof. intros [a b c d]. unfold add. simpl. rewrite !app_nil_r. reflexivity. Qed.

Lemma visit_other : forall X n g, (forall p i v c, n <> NRule p i v c) -> (forall p r, n <> NCDDL p r) -> n <> NTypedNil KRule -> n <> NTypedNil KCDDL ->
  visit X n g = Ok g.
Proof. intros X n g H1 H2 H3 H4. destruct n; try reflexivity; [|exfalso; eapply H1; reflexivity|exfalso; eapply H2; reflexivity]. destruct k; try reflexivity; congruence. Qed.

Lemma rule_dec : forall n, (exists p i v c, n = NRule p i v c) \/ forall p i v c, n <> NRule p i v c.
Proof. intros n. destruct n; try (right; intros; discriminate). left. eauto. Qed.

(** ** C36, C38 *)

Theorem C36_file : forall X p l g g', flat l ->
  (visit X (NCDDL p l) g = Ok g' <-> exists ds k, FileIs X l ds k /\ g' = add ds k g).
Proof.
  intros X p l g g' HF. cbn [visit]. revert g g'. induction l as [|n l IH]; intros g g'.
  - split; [intros H; injection H as <-; exists [], 0%nat; rewrite add_nil; split; auto; constructor|].
    intros (ds & k & H & ->). inversion H; subst. now rewrite add_nil.
  - assert (HF' : flat l) by (intros q r K; eapply HF; right; eauto). specialize (IH HF'). split.
    + intros H. destruct (visit X n g) as [g1| | |] eqn:E; try discriminate H. cbn [rbind] in H. apply IH in H as (ds & k & H1 & ->).
      destruct (rule_dec n) as [(q & i & v & c & ->)|NR].
      * apply visit_rule in E as (ds1 & k1 & E & ->). exists (ds1 ++ ds), (k1 + k)%nat. rewrite add_add. split; auto. now constructor.
      * assert (HC : forall q r, n <> NCDDL q r) by (intros q r ->; eapply HF; left; reflexivity).
        assert (HN : n <> NTypedNil KRule /\ n <> NTypedNil KCDDL) by (split; intros ->; discriminate E). destruct HN as [N1 N2].
        rewrite visit_other in E by auto. injection E as <-. exists ds, k. split; auto. now constructor.
    + intros (ds & k & H & ->). inversion H as [|q i v c l' ds1 ds2 k1 m H1 H2|n' l' ds' k' H1 H2 H3 H4 H5]; subst.
      * assert (E : visit X (NRule q i v c) g = Ok (add ds1 k1 g)) by (apply visit_rule; eauto). rewrite E. cbn [rbind]. apply IH. exists ds2, m. rewrite add_add. auto.
      * rewrite visit_other by auto. cbn [rbind]. apply IH. eauto.
Qed.

(** Visit crashes exactly when some rule is outside the supported fragment (or the
    list has a nil pointer to a rule or tree in it), and otherwise succeeds. *)
Definition supported (X : GenExt) (n : node) : Prop :=
  match n with
  | NRule _ i v _ => (exists w, GoName X (iName i) w) /\ exists e k, TypeIs X v e k
  | NTypedNil KRule | NTypedNil KCDDL => False
  | _ => True
  end.

Lemma literal_dec : forall n, literal n \/ ~ literal n.
Proof. intros n. destruct n; try (right; intros [(p' & t' & v' & E)|[(p' & t' & v' & E)|[(p' & t' & v' & E)|(p' & t' & E)]]]; discriminate E); left; unfold literal; eauto 8. Qed.

Lemma file_supported : forall X l, flat l -> ((exists ds k, FileIs X l ds k) <-> Forall (supported X) l).
Proof.
  intros X l HF. split.
  - intros (ds & k & H). clear HF. induction H as [|p i v c l ds ds' k m HR HL IH|n l ds k N1 N2 N3 N4 HL IH]; constructor; auto.
    + destruct HR; simpl; eauto.
    + destruct n; simpl; auto; [destruct k0; auto; congruence|exfalso; eapply N1; reflexivity].
  - intros H. induction H as [|n l HS HL IH]; [exists [], 0%nat; constructor|].
    destruct IH as (ds & k & HD). { intros q r K. eapply HF; right; eauto. }
    destruct (rule_dec n) as [(q & i & v & c & ->)|NR].
    + destruct HS as ((w & HW) & e & m & HT). destruct (literal_dec v) as [HV|HV].
      * eexists _, (m + k)%nat. eapply FI_rule; eauto. eapply RI_var; eauto.
      * eexists _, (m + k)%nat. eapply FI_rule; eauto. eapply RI_type; eauto.
    + exists ds, k. apply FI_other; auto.
      * intros q r ->. eapply HF; left; reflexivity.
      * intros ->. exact HS.
      * intros ->. exact HS.
Qed.

Theorem C38_crash_iff : forall X p l g, flat l ->
  (visit X (NCDDL p l) g = Panic <-> ~ Forall (supported X) l) /\ (visit X (NCDDL p l) g = Panic \/ exists g', visit X (NCDDL p l) g = Ok g').
Proof.
  intros X p l g HF. pose proof (file_supported X l HF) as HS. destruct (res_cases X (NCDDL p l) g) as [(g' & E)|E]; rewrite E.
  - split; eauto. split; [discriminate|]. intros N. exfalso. apply N, HS. apply (C36_file X p l g g' HF) in E as (ds & k & E & _). eauto.
  - split; auto. split; auto. intros _ H. apply HS in H as (ds & k & H).
    assert (K : visit X (NCDDL p l) g = Ok (add ds k g)) by (apply C36_file; eauto). congruence.
Qed.

(** Some of what is outside: whatever the names, a rule whose value is one of these
    crashes the generator. *)
Theorem C38_unsupported : forall X p i v c l1 l2 q g, flat (l1 ++ NRule p i v c :: l2) ->
  In (typeOf v) [None; Some KMap; Some KTypeChoice; Some KGroupChoice; Some KTag; Some KFloatType; Some KBstrType; Some KNegativeIntegerType;
                 Some KRange; Some KEnumeration; Some KUnwrap; Some KComparator; Some KRegexp; Some KBits; Some KOptional; Some KUintLiteral;
                 Some KCommentGroup; Some KComment; Some KBadNode; Some KEntry] ->
  visit X (NCDDL q (l1 ++ NRule p i v c :: l2)) g = Panic.
Proof.
  intros X p i v c l1 l2 q g HF HV. apply C38_crash_iff; auto. intros H. rewrite Forall_forall in H.
  destruct (H (NRule p i v c)) as [_ (e & k & HT)]; [apply in_or_app; right; left; auto|].
  destruct HT; simpl in HV; try (intuition discriminate; fail). rewrite H0 in HV. simpl in HV.
  destruct k; try discriminate H1; intuition discriminate.
Qed.

(** ** C37 *)

(** Fields correspond to members one to one and in order; only optional members are tagged. *)
Definition isOptional (n : node) : Prop := exists p t i, n = NOptional p t i.

Theorem C37_group : forall X p l e k, TypeIs X (NGroup p l) e k -> exists fs, e = GStruct fs /\
  Forall2 (fun n f => (exists m, EntryIs X n f m) /\ (snd f = Some OMITEMPTY <-> isOptional n) /\ (snd f = None <-> ~ isOptional n)) l fs.
Proof.
  intros X p l e k H. inversion H as [n k' e' E1 E2| | | | | | |p' l' fs k' HE| | |]; subst; [simpl in E1; injection E1 as <-; discriminate E2|].
  exists fs. split; auto. clear H. induction HE as [|n l f fs k m HN HL IH]; constructor; auto. split; eauto. unfold isOptional.
  destruct HN; simpl; split; split; try (intros E; discriminate E); eauto; try (intros (x1 & x2 & x3 & E); discriminate E); try (intros _ (x1 & x2 & x3 & E); discriminate E).
  intros E. exfalso. apply E. eauto.
Qed.

Theorem C37_array : forall X p l e k, TypeIs X (NArray p l) e k -> exists fs, e = GStruct (TOARRAY :: fs) /\ TypeIs X (NGroup p l) (GStruct fs) k.
Proof.
  intros X p l e k H. inversion H as [n k' e' E1 E2| | | | | | | |p' l' fs k' HE| |]; subst; [simpl in E1; injection E1 as <-; discriminate E2|].
  exists fs. split; auto. now constructor.
Qed.

(** What the generator builds for a group or array is that struct. *)
Theorem C37_built : forall X n g s g', (exists p l, n = NGroup p l \/ n = NArray p l) -> transpileNode X n g = Ok (TOk s, g') ->
  exists e k, sNode s = GExpr e /\ TypeIs X n e k.
Proof.
  intros X n g s g' HN H. destruct (gen_sound X n) as [HS _]. specialize (HS g). rewrite H in HS.
  destruct (sNode s) as [e|f|cc|fl]; [destruct HS as (k & HS); eauto| | |contradiction]; exfalso; destruct HN as (p & l & [-> | ->]).
  - destruct HS as (q & i & v & c & w & e & k & E & _). discriminate E.
  - destruct HS as (q & i & v & c & w & e & k & E & _). discriminate E.
  - destruct HS as (c & E). discriminate E.
  - destruct HS as (c & E). discriminate E.
Qed.

(** ** C39 *)

(** The number of size constraints in a tree. *)
Fixpoint sizeOps (n : node) : nat :=
  let sum := (fix sum (l : list node) : nat := match l with [] => 0%nat | x :: l => (sizeOps x + sum l)%nat end) in
  match n with
  | NSizeOp _ _ a b => S (sizeOps a + sizeOps b)
  | NGroup _ l | NArray _ l | NCDDL _ l => sum l
  | NEntry _ _ v _ | NRule _ _ v _ => sizeOps v
  | NOptional _ _ i | NNMOccurrence _ _ _ _ i => sizeOps i
  | _ => 0%nat
  end.

Lemma sizes_gen : forall X,
  (forall n e k, TypeIs X n e k -> sizeOps n = k) /\ (forall n f k, EntryIs X n f k -> sizeOps n = k) /\
  (forall l fs k, EntriesAre X l fs k -> sizeOps (NCDDL zeroPos l) = k).
Proof.
  intros X. apply gen_ind; intros; try reflexivity; auto.
  - destruct n; try reflexivity; simpl in e0; injection e0 as <-; discriminate e1.
  - simpl. rewrite H. reflexivity.
  - simpl in *. congruence.
Qed.

Lemma sizes_file : forall X l ds k, FileIs X l ds k -> flat l -> sizeOps (NCDDL zeroPos (filter (fun n => match n with NRule _ _ _ _ => true | _ => false end) l)) = k.
Proof.
  intros X l ds k H. induction H as [|p i v c l ds ds' k m HR HL IH|n l ds k N1 N2 N3 N4 HL IH]; intros HF; auto.
  - assert (HF' : flat l) by (intros q r K; eapply HF; right; eauto). specialize (IH HF'). simpl in *. rewrite IH. f_equal.
    destruct HR; eapply (proj1 (sizes_gen X)); eauto.
  - assert (HF' : flat l) by (intros q r K; eapply HF; right; eauto). specialize (IH HF'). simpl. destruct n; auto. exfalso. eapply N1; reflexivity.
Qed.

Definition isRule (n : node) : bool := match n with NRule _ _ _ _ => true | _ => false end.
Definition ruleSizes (l : list node) : nat := sizeOps (NCDDL zeroPos (filter isRule l)).

(** The printed file: an import declaration first, with the validators package once per
    size constraint, and no import declaration when there is none. With a go/ast that
    rebuilds the list of imports, there is never one. *)
Theorem C39_imports : forall X pkg p l g', flat l -> visit X (NCDDL p l) (newGenerator pkg) = Ok g' ->
  exists ds, FileIs X l ds (ruleSizes l) /\
  gDecls (genString X g') =
    if gRebuilds X then ds else match ruleSizes l with 0%nat => ds | S k => GImport (repeat VALIDATOR_PKG (S k)) :: ds end.
Proof.
  intros X pkg p l g' HF H. apply (C36_file X p l _ _ HF) in H as (ds & k & H & ->). assert (E : ruleSizes l = k) by (eapply sizes_file; eauto).
  rewrite E. exists ds. split; auto. unfold genString, add. simpl.
  assert (HI : concat (map (fun d => match d with GImport l => l | _ => [] end) ds) = []).
  { clear - H. induction H as [|p i v c l ds ds' k m HR HL IH|n l ds k N1 N2 N3 N4 HL IH]; auto. rewrite map_app, concat_app, IH, app_nil_r. destruct HR; reflexivity. }
  rewrite HI. destruct (gRebuilds X); auto. destruct k; reflexivity.
Qed.

(** ** C40 *)

(** The calls of all the [Valid] methods of a file are the checks of its rules. *)
Definition callsIn (d : gdecl) : list gcall := match d with GMethod _ _ _ c => c | _ => [] end.
Definition directCheck (n : node) : list gcall := match n with NRule _ _ v _ => checksOf v | _ => [] end.

Theorem C40_calls : forall X l ds k, FileIs X l ds k -> concat (map callsIn ds) = concat (map directCheck l).
Proof.
  intros X l ds k H. induction H as [|p i v c l ds ds' k m HR HL IH|n l ds k N1 N2 N3 N4 HL IH]; auto.
  - rewrite map_app, concat_app, IH. simpl. f_equal. destruct HR; simpl; apply app_nil_r.
  - rewrite IH. destruct n; simpl; auto. exfalso. eapply N1; reflexivity.
Qed.

(** For one rule: a call exactly when its value is a size constraint, with that size. *)
Theorem C40_rule : forall X p i v c g g', visit X (NRule p i v c) g = Ok g' ->
  exists d w calls, gDecls g' = gDecls g ++ [d; GMethod (validDoc (iName i)) (gToLower X (iName i)) w calls] /\ GoName X (iName i) w /\
    ((exists q t q' t' n ty, v = NSizeOp q t (NIntegerLiteral q' t' n) ty /\ calls = [mkCall (str "validators") (str "CheckSize") [str "self"; fmtD n]]) \/
     (typeOf v <> Some KSizeOp /\ calls = [])).
Proof.
  intros X p i v c g g' H. apply visit_rule in H as (ds & k & H & ->).
  assert (HC : forall e, TypeIs X v e k -> (exists q t q' t' n ty, v = NSizeOp q t (NIntegerLiteral q' t' n) ty /\ checksOf v = [mkCall (str "validators") (str "CheckSize") [str "self"; fmtD n]]) \/
     (typeOf v <> Some KSizeOp /\ checksOf v = [])).
  { intros e HT. destruct HT; try (right; split; [discriminate|reflexivity]); [|left; repeat eexists; reflexivity].
    right. split; [intros E; rewrite E in H0; injection H0 as <-; discriminate H1|]. destruct n; try reflexivity. simpl in H0. injection H0 as <-. discriminate H1. }
  destruct H as [i v w e k HW HT HL|i v w e k HW HT HL]; (eexists _, w, (checksOf v); split; [reflexivity|]; split; eauto).
Qed.

(** ** C52: the name in the calls is not the receiver *)

(** Every call of a generated method is on the Go name [self], while the receiver is the
    rule's name in lower case: they are the same only for a rule called [self]. *)
Theorem C52_self : forall X l ds k d r w calls c, FileIs X l ds k -> In (GMethod d r w calls) ds -> In c calls ->
  exists p i v tc, In (NRule p i v tc) l /\ typeOf v = Some KSizeOp /\ r = gToLower X (iName i) /\ GoName X (iName i) w /\ hd [] (cArgs c) = str "self".
Proof.
  intros X l ds k d r w calls c H HI HC.
  induction H as [|p i v tc l ds ds' k m HR HL IH|n l ds k N1 N2 N3 N4 HL IH]; [destruct HI| |].
  - apply in_app_or in HI as [HI|HI].
    + exists p, i, v, tc. split; [left; auto|].
      assert (E : calls = checksOf v /\ r = gToLower X (iName i) /\ GoName X (iName i) w) by (destruct HR; destruct HI as [HI|[HI|[]]]; inversion HI; subst; auto).
      destruct E as (-> & -> & HW). destruct v; try contradiction. simpl in HC. destruct v1; try contradiction. destruct HC as [<-|[]]. auto.
    + destruct (IH HI) as (a & b & e & f & A & B). exists a, b, e, f. split; auto. right; auto.
  - destruct (IH HI) as (a & b & e & f & A & B). exists a, b, e, f. split; auto. right; auto.
Qed.

(** ** C53: imports that are not used *)

(** When no rule is a size constraint itself but one is nested somewhere, the file imports
    the validators package and no method calls it. *)
Theorem C53_unused_import : forall X pkg p l g', flat l -> gRebuilds X = false -> visit X (NCDDL p l) (newGenerator pkg) = Ok g' ->
  (0 < ruleSizes l)%nat -> (forall q i v c, In (NRule q i v c) l -> typeOf v <> Some KSizeOp) ->
  exists paths ds, gDecls (genString X g') = GImport paths :: ds /\ In VALIDATOR_PKG paths /\ concat (map callsIn ds) = [].
Proof.
  intros X pkg p l g' HF HR H HS HN. destruct (C39_imports X pkg p l g' HF H) as (ds & HFi & E). rewrite HR in E.
  destruct (ruleSizes l) as [|k]; [lia|]. exists (repeat VALIDATOR_PKG (S k)), ds. split; auto. split; [left; reflexivity|].
  rewrite (C40_calls _ _ _ _ HFi). clear - HN. induction l as [|n l IH]; auto. simpl. rewrite IH by (intros; eapply HN; right; eauto). rewrite app_nil_r.
  destruct n; auto. simpl. destruct n; auto. exfalso. eapply HN; [left; reflexivity|reflexivity].
Qed.

(** ** C54: methods of variables *)

(** A rule with a literal value declares a variable and then a method of it, and declares
    no type of that name. *)
Theorem C54_variable_method : forall X p i v c g g', literal v -> visit X (NRule p i v c) g = Ok g' ->
  exists w e, GoName X (iName i) w /\
    gDecls g' = gDecls g ++ [GVar (declDoc (iName i)) w e; GMethod (validDoc (iName i)) (gToLower X (iName i)) w []].
Proof.
  intros X p i v c g g' HL H. apply visit_rule in H as (ds & k & H & ->).
  assert (E : checksOf v = []) by (destruct HL as [(a & b & d & ->)|[(a & b & d & ->)|[(a & b & d & ->)|(a & b & ->)]]]; reflexivity).
  destruct H as [i v w e k HW HT HL'|i v w e k HW HT HL']; [|contradiction]. rewrite E. exists w, e. split; auto.
Qed.

(** Text literals are written without quotes. *)
Theorem C54_text_unquoted : forall X p i q t s c g g', visit X (NRule p i (NTextLiteral q t s) c) g = Ok g' ->
  exists w m, gDecls g' = gDecls g ++ [GVar (declDoc (iName i)) w (GBasic s); m].
Proof.
  intros X p i q t s c g g' H. apply visit_rule in H as (ds & k & H & ->).
  inversion H as [i' v' w e k' HW HT HL'|i' v' w e k' HW HT HL']; subst.
  - assert (E : e = GBasic s).
    { inversion HT; subst; auto. match goal with H : baseType ?k = Some _ |- _ => destruct k; discriminate end. }
    subst e. exists w. eexists. reflexivity.
  - exfalso. apply HL'. unfold literal. eauto 8.
Qed.

(** ** C55: writing twice *)

Theorem C55_twice : forall X g, gRebuilds X = false -> gFileImports g = [] -> gImports g <> [] ->
  gDecls (genString X g) = GImport (gImports g) :: gDecls g /\
  gDecls (genString X (genString X g)) = GImport (gImports g ++ gImports g) :: GImport (gImports g) :: gDecls g.
Proof.
  intros X g HR HF HN. unfold genString. rewrite HR, HF. simpl. destruct (gImports g) as [|a r]; [congruence|]. split; reflexivity.
Qed.

Theorem C55_without_imports : forall X g, gFileImports g = [] -> gImports g = [] -> (forall l, ~ In (GImport l) (gDecls g)) ->
  gDecls (genString X (genString X g)) = gDecls (genString X g).
Proof.
  intros X g HF HI HN. assert (E : concat (map (fun d => match d with GImport l => l | _ => [] end) (gDecls g)) = []).
  { destruct g as [a b c ds]. simpl in *. clear - HN. induction ds as [|d ds IH]; auto. simpl. rewrite IH by (intros l K; eapply HN; right; eauto).
    destruct d; auto. exfalso. eapply HN; left; reflexivity. }
  unfold genString. rewrite HF, HI. destruct (gRebuilds X); simpl; rewrite ?E; reflexivity.
Qed.

(** ** C56 *)

Theorem C56_no_conversion : forall c, optionsValid c = false.
Proof. reflexivity. Qed.

(** ** Trees of the parser are flat *)

Theorem C38_parsed : forall X Y s e rules ds p' g, LexSpec.decodable s ->
  Parser.parseSource Y (Parser.parseFuel s) s e = Ok ((Some (NCDDL zeroPos rules), ds), p') ->
  (visit X (NCDDL zeroPos rules) g = Panic <-> ~ Forall (supported X) rules).
Proof.
  intros X Y s e rules ds p' g D H. apply C38_crash_iff. intros q r HI.
  destruct (Props_Tree.returned_rules _ _ _ _ _ _ D H) as (ts & eof & _ & HR). rewrite Forall_forall in HR. specialize (HR _ HI).
  inversion HR as [c cms HC HIn E| |]. destruct cms; discriminate E.
Qed.

(** ** Examples *)

(** Upper-case the first letter; enough for the examples. *)
Definition XG : GenExt := mkGenExt
  (fun w => match w with c :: r => (if (97 <=? c) && (c <=? 122) then c - 32 else c) :: r | [] => [] end)
  (fun w => match w with c :: r => ((65 <=? c) && (c <=? 90)) || ((97 <=? c) && (c <=? 122)) | [] => false end)
  (fun w => map (fun c => if (65 <=? c) && (c <=? 90) then c + 32 else c) w) (fun _ => str "1.5") false.

(** [person = [name: tstr, ? age: uint]], [id = tstr .size 4], [n = 5]. *)
Definition exampleDoc : bytes := str "person = [name: tstr, ? age: uint .size 2] " ++ str "id = tstr .size 4 " ++ str "n = 5".

(** The rules of a source accepted without diagnostics. *)
Definition rulesOf (s : bytes) : list node :=
  match Parser.parseSource Props_Lexer.X0 (Parser.parseFuel s) s [] with Ok ((Some (NCDDL _ rules), None), _) => rules | _ => [] end.

(** The declarations generated for it, imports included. *)
Definition generated (s : bytes) : res (list gdecl) :=
  g <- visit XG (NCDDL zeroPos (rulesOf s)) (newGenerator (str "main")) ;; Ok (gDecls (genString XG g)).

Example C36_ex : generated exampleDoc = Ok
    [GImport [VALIDATOR_PKG; VALIDATOR_PKG];
     GType (declDoc (str "person")) (str "Person")
       (GStruct [TOARRAY; ([str "Name"], GIdent (str "string"), None); ([str "Age"], GIdent (str "uint"), Some OMITEMPTY)]);
     GMethod (validDoc (str "person")) (str "person") (str "Person") [];
     GType (declDoc (str "id")) (str "Id") (GIdent (str "string"));
     GMethod (validDoc (str "id")) (str "id") (str "Id") [mkCall (str "validators") (str "CheckSize") [str "self"; str "4"]];
     GVar (declDoc (str "n")) (str "N") (GBasic (str "5"));
     GMethod (validDoc (str "n")) (str "n") (str "N") []].
Proof. vm_compute. reflexivity. Qed.

(** A map crashes the generator. *)
Example C38_ex : length (rulesOf (str "a = {b: int}")) = 1%nat /\ generated (str "a = {b: int}") = Panic.
Proof. vm_compute. split; reflexivity. Qed.

(** A nested size constraint alone: an unused import. *)
Example C53_ex : ruleSizes (rulesOf (str "a = (b: tstr .size 4)")) = 1%nat /\
  generated (str "a = (b: tstr .size 4)") = Ok
    [GImport [VALIDATOR_PKG]; GType (declDoc (str "a")) (str "A") (GStruct [([str "B"], GIdent (str "string"), None)]);
     GMethod (validDoc (str "a")) (str "a") (str "A") []].
Proof. vm_compute. split; reflexivity. Qed.
