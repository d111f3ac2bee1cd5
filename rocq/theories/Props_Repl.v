(** Properties C32, C49, C50: the REPL and the tree printer. *)
From Coq Require Import String.
From Verif Require Import Base Utf8 Token Ext Strconv Lexer LexSpec LexSpec2 LexSeq Ast Env Diag Parser Print Repl ParseSpec ParseStream
  ParseFacts ParseSource ParseFrame ParseShape ParseLoose EnvProofs ParseTried Props_Lexer Props_Parser.
Open Scope string_scope.
Open Scope list_scope.
Open Scope Z_scope.

(** ** C32 *)

(** The lines that are not parsed. *)
Definition command (text : bytes) : Prop :=
  exists c rest, In c [str ":help"; str ":pv"; str ":exit"; str ":tree"] /\ text = c ++ rest.

(** [Defines X line d]: the definitions a line of CDDL makes, in order. *)
Inductive Defines (X : Ext) (line : bytes) : list (bytes * node) -> Prop :=
| Df_tree : forall ts f e rules ds p d, Str X (newLexer line) ts f ->
    parseSource X (parseFuel line) line e = Ok ((Some (NCDDL zeroPos rules), ds), p) -> Defs ts rules d -> Defines X line d
| Df_none : forall e ds p, parseSource X (parseFuel line) line e = Ok ((None, ds), p) -> Defines X line [].

Lemma hasPrefix_iff : forall p s, hasPrefix s p = true <-> exists r, s = p ++ r.
Proof.
  induction p as [|y p IH]; intros s.
  - split; intros _; [exists s; reflexivity|destruct s; reflexivity].
  - destruct s as [|x s]; simpl; [split; [discriminate|intros [r E]; discriminate]|].
    rewrite andb_true_iff, Z.eqb_eq, IH. split.
    + intros [-> [r ->]]. eauto.
    + intros [r E]. inversion E; subst. eauto.
Qed.

Lemma hasPrefix_command : forall c s, In c [str ":help"; str ":pv"; str ":exit"; str ":tree"] -> hasPrefix s c = true -> command s.
Proof. intros c s HI H. apply hasPrefix_iff in H as [r ->]. exists c, r. auto. Qed.

Lemma not_command : forall s, hasPrefix s (str ":help") = false -> hasPrefix s (str ":pv") = false -> hasPrefix s (str ":exit") = false ->
  hasPrefix s (str ":tree") = false -> ~ command s.
Proof.
  intros s H1 H2 H3 H4 (c & r & HI & ->). assert (K : hasPrefix (c ++ r) c = true) by (apply hasPrefix_iff; eauto).
  destruct HI as [<-|[<-|[<-|[<-|[]]]]]; congruence.
Qed.

(** One turn. *)
Lemma turn_spec : forall X R lex s line o s', decodable line -> turn X R lex s line = Ok (o, Some s') ->
  exists d, ((command (xTrimSpace R line) /\ d = []) \/ (~ command (xTrimSpace R line) /\ Defines X line d)) /\
    sEnv s' = addAll (sEnv s) d.
Proof.
  intros X R lex s line o s' D H. unfold turn in H.
  destruct (hasPrefix (xTrimSpace R line) (str ":help")) eqn:E1.
  { inversion H; subst. exists []. split; [left; split; auto; eapply hasPrefix_command; eauto; simpl; auto|reflexivity]. }
  destruct (hasPrefix (xTrimSpace R line) (str ":pv")) eqn:E2.
  { inversion H; subst. exists []. split; [left; split; auto; eapply hasPrefix_command; eauto; simpl; auto|reflexivity]. }
  destruct (hasPrefix (xTrimSpace R line) (str ":exit")) eqn:E3; [discriminate|].
  destruct (hasPrefix (xTrimSpace R line) (str ":tree")) eqn:E4.
  { destruct (printTrees _ _ _); try discriminate. inversion H; subst. exists []. split; [left; split; auto; eapply hasPrefix_command; eauto; simpl; auto|reflexivity]. }
  destruct (if lex then _ else _) as [tk| | |] in H; try discriminate. cbn [rbind] in H.
  destruct (parseSource X (parseFuel line) line (sEnv s)) as [[[root ds] p]| | |] eqn:EP; try discriminate. cbn [rbind] in H.
  destruct (if sVerbose s then _ else _) in H; try discriminate. cbn [rbind] in H. inversion H; subst. cbn [sEnv].
  destruct (parseSource_tried _ _ _ _ _ _ EP) as [[N1 N2]|(rules & l & N1 & _ & _)]; cbn [fst] in N1; subst root.
  - exists []. split; [right; split; [apply not_command; auto|eapply Df_none; eauto]|exact N2].
  - destruct (new_str X line D) as (ts & f & k & HS & _ & _ & HLen & _).
    destruct (source_defs X line (sEnv s) (parseFuel line) ts f rules ds p HS ltac:(unfold parseFuel; lia) EP) as (l' & HD & EL).
    exists l'. split; [right; split; [apply not_command; auto|eapply Df_tree; eauto]|exact EL].
Qed.

(** After any number of lines each name is bound to the first definition of it
    made in the whole session. *)
Theorem C32_session : forall X R lex lines s o s', Forall decodable lines -> replLoop X R lex s lines = Ok (o, CouldNotScan, s') ->
  exists ds, Forall2 (fun line d => (command (xTrimSpace R line) /\ d = []) \/ (~ command (xTrimSpace R line) /\ Defines X line d)) lines ds /\
    forall w v, boundTo (sEnv s') w v <-> First w (sEnv s ++ concat ds) v.
Proof.
  intros X R lex. assert (HG : forall lines s o s', Forall decodable lines -> replLoop X R lex s lines = Ok (o, CouldNotScan, s') ->
    exists ds, Forall2 (fun line d => (command (xTrimSpace R line) /\ d = []) \/ (~ command (xTrimSpace R line) /\ Defines X line d)) lines ds /\
      sEnv s' = addAll (sEnv s) (concat ds)).
  { induction lines as [|line lines IH]; intros s o s' D H; simpl in H.
    - inversion H; subst. exists []. split; [constructor|reflexivity].
    - inversion D as [|? ? D1 D2]; subst. destruct (turn X R lex s line) as [[o1 s1]| | |] eqn:ET; try discriminate. cbn [rbind] in H.
      destruct s1 as [s1|]; [|discriminate]. destruct (replLoop X R lex s1 lines) as [[[o2 en] s2]| | |] eqn:EL; try discriminate.
      cbn [rbind] in H. inversion H; subst. destruct (turn_spec _ _ _ _ _ _ _ D1 ET) as (d & HD & HE).
      destruct (IH _ _ _ D2 EL) as (ds & HF & HE2). exists (d :: ds). split; [constructor; auto|]. cbn [concat]. rewrite addAll_app. congruence. }
  intros lines s o s' D H. destruct (HG _ _ _ _ D H) as (ds & HF & HE). exists ds. split; auto.
  intros w v. rewrite HE. unfold boundTo. rewrite assoc_first. apply addAll_first.
Qed.

(** Bindings are never lost, whatever the lines. *)
Theorem C32_never_removed : forall X R lex lines s o en s', replLoop X R lex s lines = Ok (o, en, s') ->
  forall w v, boundTo (sEnv s) w v -> boundTo (sEnv s') w v.
Proof.
  intros X R lex. induction lines as [|line lines IH]; intros s o en s' H w v HB; simpl in H; [inversion H; subst; auto|].
  destruct (turn X R lex s line) as [[o1 s1]| | |] eqn:ET; try discriminate. cbn [rbind] in H.
  destruct s1 as [s1|]; [|inversion H; subst; auto].
  destruct (replLoop X R lex s1 lines) as [[[o2 en2] s2]| | |] eqn:EL; try discriminate. cbn [rbind] in H. inversion H; subst.
  eapply IH; eauto. unfold turn in ET.
  repeat (match type of ET with (if ?c then _ else _) = _ => destruct c end; [try discriminate; first [inversion ET; subst; exact HB | destruct (printTrees _ _ _); try discriminate; inversion ET; subst; exact HB]|]).
  destruct (if lex then _ else _) as [tk| | |] in ET; try discriminate. cbn [rbind] in ET.
  destruct (parseSource X (parseFuel line) line (sEnv s)) as [[[root ds] p]| | |] eqn:EP; try discriminate. cbn [rbind] in ET.
  destruct (if sVerbose s then _ else _) in ET; try discriminate. cbn [rbind] in ET. inversion ET; subst. cbn [sEnv].
  apply (proj1 (C20_first_definition_wins _ _ _ _ _ _ EP)). exact HB.
Qed.

(** What [:tree name] shows: the value bound to the name, or nothing. *)
Theorem C32_tree_command : forall X R lex s line w, xTrimSpace R line = str ":tree " ++ w -> ~ In 32 w ->
  (forall v, boundTo (sEnv s) w v -> v <> NNil -> turn X R lex s line = (t <- format (xFmtF R) v;; Ok ([OTree w t], Some s))) /\
  (~ bound (sEnv s) w -> turn X R lex s line = Ok ([], Some s)).
Proof.
  intros X R lex s line w E HN.
  assert (ES : forall u, ~ In 32 u -> split 32 u = [u]).
  { induction u as [|x u IH]; simpl; intros H; auto. destruct (x =? 32) eqn:EX; [exfalso; apply H; left; lia|]. rewrite IH; auto. }
  assert (EA : tl (split 32 (xTrimSpace R line)) = [w]).
  { rewrite E. change (split 32 (str ":tree " ++ w)) with ([58; 116; 114; 101; 101] :: split 32 w). simpl. now apply ES. }
  assert (EP : forall c, In c [str ":help"; str ":pv"; str ":exit"] -> hasPrefix (xTrimSpace R line) c = false).
  { intros c Hc. rewrite E. destruct Hc as [<-|[<-|[<-|[]]]]; reflexivity. }
  assert (ET : turn X R lex s line = (o <- printTrees R (sEnv s) [w];; Ok (o, Some s))).
  { unfold turn. rewrite !EP by (simpl; auto). replace (hasPrefix (xTrimSpace R line) (str ":tree")) with true by (rewrite E; reflexivity). now rewrite EA. }
  rewrite ET. cbn [printTrees]. unfold get. split.
  - intros v HB NN. unfold boundTo in HB. rewrite HB. destruct v; try congruence; destruct (format (xFmtF R) _); reflexivity.
  - intros HB. replace (assoc w (sEnv s)) with (@None node); [reflexivity|]. symmetry. apply assoc_unlisted. intros [v HI]. apply HB. apply (in_map fst) in HI. exact HI.
Qed.

(** A session of five lines. *)
Definition R0 : ReplExt := mkReplExt (fun b => b) (fun _ => str "0.0").
Example C32_ex : exists d t, repl X0 R0 false [str "a = 1"; str "a = int"; str "b = a"; str ":tree b a c"; str ":exit"; str "c = 1"] =
  Ok ([OErrors [d]; OTree (str "b") t; OTree (str "a") (str "IntegerLiteral (Literal: '1') { Column: 5, Line: 1 }"); OExit], Exited,
      mkSession [(str "a", NIntegerLiteral (mkPos [] 4 1 5) INT 1); (str "b", NIdentifier (mkIdent (mkPos [] 4 1 5) (str "a")))] false).
Proof. do 2 eexists. vm_compute. reflexivity. Qed.

(** ** C49 *)

Lemma format_real : forall X fmtF, 
  (forall u nx n tk, Entry X u nx n tk -> forall level, exists t, formatNode fmtF level n = Ok t) /\
  (forall u nx n tk, Nud X u nx n tk -> forall level, exists t, formatNode fmtF level n = Ok t) /\
  (forall lst l u nx n tk, Tail X lst l u nx n tk -> (forall level, exists t, formatNode fmtF level l = Ok t) -> forall level, exists t, formatNode fmtF level n = Ok t) /\
  (forall es c ns tk, Entries X es c ns tk -> True).
Proof.
  intros X fmtF. apply grammar_ind; intros; auto; try (eexists; reflexivity).
  - match goal with H : Atom _ _ _ _ _ |- _ => destruct H; eexists; reflexivity end.
  - simpl. match goal with H : forall level, _ |- _ => destruct (H (S level)) as [x ->] end. eexists; reflexivity.
  - match goal with HI : Infix _ _ _ _ _ _, HL : forall level, exists t, formatNode _ level ?l = _, HV : forall level, exists t, formatNode _ level ?v = _ |- _ =>
      destruct HI; try (eexists; reflexivity) end.
    simpl. repeat match goal with HL : forall level, exists t, formatNode _ level ?l = _ |- _ => let x := fresh in let E := fresh in destruct (HL (S level)) as [x E]; clear HL; rewrite ?E end.
    eexists; cbn [rbind]; reflexivity.
  - match goal with H : (forall level, exists t, _) -> forall _, _ |- _ => apply H; intros; eexists; reflexivity end.
  - match goal with H : (forall level, exists t, _) -> forall _, _ |- _ => apply H; intros; eexists; reflexivity end.
Qed.

(** The nodes [format] looks at. *)
Inductive Shown : node -> node -> Prop :=
| Sh_self : forall n, Shown n n
| Sh_first : forall p t a b m, Shown a m -> Shown (NTypeChoice p t a b) m
| Sh_second : forall p t a b m, Shown b m -> Shown (NTypeChoice p t a b) m
| Sh_enum : forall p t v m, Shown v m -> Shown (NEnumeration p t v) m.

(** [format] crashes exactly when it meets a nil pointer of one of the types it
    has a method for, and otherwise returns. *)
Theorem C49_format_crashes_iff : forall fmtF n,
  (format fmtF n = Panic <-> exists k, Shown n (NTypedNil k) /\
     In k [KIdentifier; KTypeChoice; KIntegerLiteral; KFloatLiteral; KIntegerType; KFloatType; KEnumeration; KGroup]) /\
  (format fmtF n <> Panic -> exists t, format fmtF n = Ok t).
Proof.
  intros fmtF n. unfold format. generalize 1%nat as level. induction n; intros level;
    try (split; [split; [discriminate|intros (k' & HS & _); inversion HS]|intros _; eexists; reflexivity]).
  - split.
    + split.
      * intros H. exists k. split; [constructor|]. destruct k; simpl in *; try discriminate; tauto.
      * intros (k' & HS & HI). inversion HS; subst. destruct k'; simpl in *; auto; exfalso; repeat (destruct HI as [HI|HI]; [discriminate|]); contradiction.
    + intros H. destruct k; simpl in *; try congruence; eexists; reflexivity.
  - simpl. destruct (IHn1 (S level)) as [A1 A2], (IHn2 (S level)) as [B1 B2].
    destruct (formatNode fmtF (S level) n1) as [x| | |] eqn:E1; cbn [rbind].
    2:{ split; [|intros H; exfalso; apply H; reflexivity]. split; auto. intros _. destruct (proj1 A1 eq_refl) as (k & HS & HI). exists k. split; auto. now constructor. }
    2:{ destruct (A2 ltac:(discriminate)) as [? ?]; discriminate. }
    2:{ destruct (A2 ltac:(discriminate)) as [? ?]; discriminate. }
    destruct (formatNode fmtF (S level) n2) as [y| | |] eqn:E2; cbn [rbind].
    2:{ split; [|intros H; exfalso; apply H; reflexivity]. split; auto. intros _. destruct (proj1 B1 eq_refl) as (k & HS & HI). exists k. split; auto. now apply Sh_second. }
    2:{ destruct (B2 ltac:(discriminate)) as [? ?]; discriminate. }
    2:{ destruct (B2 ltac:(discriminate)) as [? ?]; discriminate. }
    split; [|intros _; eexists; reflexivity]. split; [discriminate|]. intros (k & HS & HI). inversion HS; subst.
    + assert (K : @Ok bytes x = Panic) by (apply A1; eauto). discriminate.
    + assert (K : @Ok bytes y = Panic) by (apply B1; eauto). discriminate.
  - simpl. destruct (IHn (S level)) as [A1 A2]. destruct (formatNode fmtF (S level) n) as [x| | |] eqn:E1; cbn [rbind].
    2:{ split; [|intros H; exfalso; apply H; reflexivity]. split; auto. intros _. destruct (proj1 A1 eq_refl) as (k & HS & HI). exists k. split; auto. now constructor. }
    2:{ destruct (A2 ltac:(discriminate)) as [? ?]; discriminate. }
    2:{ destruct (A2 ltac:(discriminate)) as [? ?]; discriminate. }
    split; [|intros _; eexists; reflexivity]. split; [discriminate|]. intros (k & HS & HI). inversion HS; subst.
    assert (K : @Ok bytes x = Panic) by (apply A1; eauto). discriminate.
Qed.

(** No session makes [:tree] crash. *)
Theorem C49_tree_command_never_crashes : forall X R lex lines o b s' args, Forall decodable lines ->
  replLoop X R lex (mkSession newEnvironment b) lines = Ok (o, CouldNotScan, s') -> exists out, printTrees R (sEnv s') args = Ok out.
Proof.
  intros X R lex lines o b s' args D H. destruct (C32_session _ _ _ _ _ _ _ D H) as (ds & HF & HB). simpl in HB.
  assert (HP : forall w v, boundTo (sEnv s') w v -> exists t, format (xFmtF R) v = Ok t).
  { intros w v HV. apply HB in HV. assert (HI : In (w, v) (concat ds)).
    { clear - HV. induction HV; [left; auto|right; auto]. }
    apply in_concat in HI as (d & Hd & HI). clear - HF Hd HI D. induction HF as [|line d' lines ds HL HF IH]; [contradiction|].
    inversion D; subst. destruct Hd as [-> |Hd]; [|apply IH; auto].
    destruct HL as [[_ ->]|[_ HL]]; [contradiction|]. destruct HL as [ts f e rules dg p d HS HP HD|]; [|contradiction].
    assert (HR : Forall (RuleOf X ts) rules).
    { destruct (new_str X line ltac:(assumption)) as (ts' & f' & k & HS' & _ & _ & HLen & _). destruct (str_fun _ _ _ _ HS _ _ HS') as [-> ->].
      eapply source_loose; [exact HS| |exact HP]. unfold parseFuel. lia. }
    clear - HD HI HR. induction HD as [|n rules l HN HD IH|i rules l HD IH|i x c rules l HX HA HD IH|i x c rules l HX HA HD IH]; inversion HR; subst; auto; [contradiction|].
    destruct HI as [HI|HI]; [|auto]. inversion HI; subst.
    match goal with H : RuleOf _ _ _ |- _ => inversion H as [| |q z u nx v0 tk tc _ _ HEn _]; subst end.
    - destruct cms; discriminate.
    - destruct HX; congruence.
    - unfold format. eapply (proj1 (format_real X (xFmtF R))); eauto. }
  clear - HP. induction args as [|a args IH]; [eexists; reflexivity|]. destruct IH as [o IH]. cbn [printTrees]. unfold get.
  destruct (assoc a (sEnv s')) as [v|] eqn:EA; [|exists o; exact IH]. destruct (HP a v EA) as [t ET].
  destruct v; rewrite ?ET, IH; eexists; reflexivity.
Qed.

Example C49_ex : format (fun _ => []) (NTypeChoice zeroPos TYPE_CHOICE (NIdentifier (mkIdent zeroPos (str "a"))) (NTypedNil KIntegerType)) = Panic /\
  exists t, printTrees R0 [(str "a", NComparator zeroPos LT (str ".lt") (NTypedNil KIntegerType) NNil)] [str "b"; str "a"] = Ok [OTree (str "a") t].
Proof. split; [reflexivity|]. eexists. vm_compute. reflexivity. Qed.

(** ** C50 *)

(** With verbose printing on, a line whose first two tokens contain a lexer error
    ends the REPL with a nil dereference; without it the line has no effect. *)
Theorem C50_verbose_crash : forall X R s line ds p, ~ command (xTrimSpace R line) ->
  parseSource X (parseFuel line) line (sEnv s) = Ok ((None, ds), p) ->
  turn X R false s line = if sVerbose s then Panic else Ok ([], Some s).
Proof.
  intros X R s line ds p HC HP. unfold turn.
  assert (HN : forall c, In c [str ":help"; str ":pv"; str ":exit"; str ":tree"] -> hasPrefix (xTrimSpace R line) c = false).
  { intros c Hc. destruct (hasPrefix (xTrimSpace R line) c) eqn:E; auto. exfalso. apply HC. eapply hasPrefix_command; eauto. }
  rewrite !HN by (simpl; auto). cbn [rbind]. rewrite HP. cbn [rbind].
  assert (HD : ds = None).
  { unfold parseSource in HP. destruct (newParser X (newLexer line) (sEnv s)) as [q| | |]; try discriminate. cbn [rbind] in HP. unfold parseFile in HP.
    destruct (errors (lx q)); [|now inversion HP]. destruct (fileLoop X _ _ _ q) as [[? ?]| | |]; discriminate. }
  subst ds. destruct (sVerbose s) eqn:EV; [reflexivity|]. cbn [rbind app].
  destruct (parseSource_tried _ _ _ _ _ _ HP) as [[_ E]|(rules & l & E & _)]; [|discriminate]. rewrite E. destruct s; simpl in *; subst. reflexivity.
Qed.

(** [:pv] flips the verbose flag and nothing else does. *)
Theorem C50_verbose_flag : forall X R lex s line o s', turn X R lex s line = Ok (o, Some s') ->
  sVerbose s' = (if hasPrefix (xTrimSpace R line) (str ":pv") then negb (sVerbose s) else sVerbose s).
Proof.
  intros X R lex s line o s' H. unfold turn in H.
  destruct (hasPrefix (xTrimSpace R line) (str ":help")) eqn:E1.
  { inversion H; subst. destruct (hasPrefix (xTrimSpace R line) (str ":pv")) eqn:E2; auto. exfalso.
    apply hasPrefix_iff in E1 as [r1 E1], E2 as [r2 E2]. rewrite E1 in E2. discriminate. }
  destruct (hasPrefix (xTrimSpace R line) (str ":pv")) eqn:E2; [inversion H; reflexivity|].
  destruct (hasPrefix (xTrimSpace R line) (str ":exit")); [discriminate|].
  destruct (hasPrefix (xTrimSpace R line) (str ":tree")).
  { destruct (printTrees _ _ _); try discriminate. inversion H; reflexivity. }
  destruct (if lex then _ else _) in H; try discriminate. cbn [rbind] in H.
  destruct (parseSource _ _ _ _) as [[[root ds] p]| | |]; try discriminate. cbn [rbind] in H.
  destruct (if sVerbose s then _ else _) in H; try discriminate. inversion H; reflexivity.
Qed.

Example C50_ex : repl X0 R0 false [str ":pv"; str "x = 1"; str "y = ""abc"] = Ok ([OType (str "x") (str "*ast.IntegerLiteral"); OType (str "y") (str "*ast.TextLiteral")], CouldNotScan,
    mkSession [(str "x", NIntegerLiteral (mkPos [] 4 1 5) INT 1); (str "y", NTextLiteral (mkPos [] 4 1 5) TEXT_LITERAL (str "ab"))] true) /\
  repl X0 R0 false [str ":pv"; str "x = 1"; str "y ""abc"] = Panic.
Proof. split; vm_compute; reflexivity. Qed.
