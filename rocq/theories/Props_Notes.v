(** Property C104: the texts of comments change neither what is generated nor any diagnostic. *)
From Coq Require Import String.
From Verif Require Import Base Utf8 Token Strconv Ext Lexer LexSpec LexSpec2 LexSpec3 LexerProofs LexSeq LexOne LexWords Ast Env Diag Parser Doc ParseSound ParseTwin ParseLayout ParseNotes Codegen Cli
  Props_Lexer Props_LexFull Props_Parser Props_Codegen Props_Report Props_Cli Props_Layout Props_Reformat.
Open Scope string_scope.
Open Scope list_scope.
Open Scope Z_scope.

(** ** Specification *)

(** The same lexemes but for the texts of comments, with other blanks between them; a comment
    that is not the first lexeme has a newline before it in both sources or in neither. *)
Inductive Renoted (X : Ext) : bool -> bytes -> bytes -> Prop :=
| rn_end first g g' : allBlank g -> allBlank g' -> Renoted X first g g'
| rn_none first s s' : noToken X s -> noToken X s' -> Renoted X first s s'
| rn_lexeme first g g' tk text lit rest rest' : allBlank g -> allBlank g' -> text <> [] ->
    Lexed X tk text lit rest -> Lexed X tk text lit rest' ->
    (first = false -> tk = COMMENT -> (In 10 g <-> In 10 g')) ->
    Renoted X false rest rest' -> Renoted X first (g ++ text ++ rest) (g' ++ text ++ rest')
| rn_comment first g g' c c' rest rest' : allBlank g -> allBlank g' -> ~ In 10 c -> ~ In 10 c' ->
    rest = [] \/ hd 0 rest = 10 -> rest' = [] \/ hd 0 rest' = 10 ->
    (first = false -> (In 10 g <-> In 10 g')) ->
    Renoted X false rest rest' -> Renoted X first (g ++ (59 :: c) ++ rest) (g' ++ (59 :: c') ++ rest').

(** The same outcome, positions and texts of comments apart. *)
Definition sameBarNotes (a b : res (fileResult * parser)) : Prop :=
  match a, b with
  | Ok ((t, ds), p), Ok ((t', ds'), p') =>
    option_map noteFile t = option_map noteFile t' /\ option_map (map noteD) ds = option_map (map noteD) ds' /\
    map noteDef (env p) = map noteDef (env p')
  | Panic, Panic => True
  | _, _ => False
  end.

(** ** Sources with such tokens *)

Lemma tokens_simi : forall X s s' e e', decodable s -> decodable s' ->
  (forall n, relRes (fun a b => Similar (fst a) (fst b)) (scans X n (newLexer s)) (scans X n (newLexer s'))) ->
  (forall t l t' l', scans X 2 (newLexer s) = Ok (t, l) -> scans X 2 (newLexer s') = Ok (t', l') -> (errors l = [] <-> errors l' = [])) ->
  map noteDef e = map noteDef e' ->
  sameBarNotes (parseSource X (parseFuel s) s e) (parseSource X (parseFuel s') s' e').
Proof.
  intros X s s' e e' D D' HS HE HD.
  destruct (C14_terminates X s e D) as (r & N1 & N2 & HR), (C14_terminates X s' e' D') as (r' & N1' & N2' & HR').
  rewrite (HR (parseFuel s)), (HR' (parseFuel s')) by apply Nat.le_refl.
  assert (H := parseSource_simi X (Nat.max (parseFuel s) (parseFuel s')) s s' e e').
  rewrite (HR (Nat.max _ _)), (HR' (Nat.max _ _)) in H by (auto using Nat.le_max_l, Nat.le_max_r).
  specialize (H HS HE HD). destruct r as [[[t ds] p]| | |], r' as [[[t' ds'] p']| | |]; cbn [relRes sameBarNotes] in *; auto.
  destruct H as (K1 & K2 & _ & K3 & _). auto.
Qed.

Lemma renote_scans : forall X n s s' l l' k k' first t t', St s l k -> St s' l' k' -> Renoted X first (skipn k s) (skipn k' s') ->
  (first = false -> alikeTok t t' /\ prevOk s k t /\ prevOk s' k' t') -> (errors l = [] <-> errors l' = []) ->
  relRes (fun a b => Similar (if first then fst a else t :: fst a) (if first then fst b else t' :: fst b) /\ (errors (snd a) = [] <-> errors (snd b) = []))
    (scans X n l) (scans X n l').
Proof.
  intros X. induction n as [|n IH]; intros s s' l l' k k' first t t' HS HS' HR HF HE.
  - cbn [scans relRes fst snd]. split; auto. destruct first; [constructor|]. destruct HF as (H1 & _); auto. now constructor.
  - assert (STEP : forall g tk text lit rest l1 g' text' lit' rest' l1', skipn k s = g ++ text ++ rest -> skipn k' s' = g' ++ text' ++ rest' -> ~ In 10 text -> ~ In 10 text' ->
      St s l1 (k + length g + length text) -> St s' l1' (k' + length g' + length text') -> (tk <> COMMENT -> lit = lit') -> Renoted X false rest rest' ->
      (first = false -> tk = COMMENT -> (In 10 g <-> In 10 g')) -> (errors l1 = [] <-> errors l1' = []) ->
      scan X l = Ok (mkTok tk (posAt s (k + length g)) lit, l1) -> scan X l' = Ok (mkTok tk (posAt s' (k' + length g')) lit', l1') ->
      relRes (fun a b => Similar (if first then fst a else t :: fst a) (if first then fst b else t' :: fst b) /\ (errors (snd a) = [] <-> errors (snd b) = []))
        (scans X (S n) l) (scans X (S n) l')).
    { intros g tk text lit rest l1 g' text' lit' rest' l1' E E' N N' S1 S1' MB R1 HC HE1 SC SC'. cbn [scans]. rewrite SC, SC'. cbn [rbind].
      assert (R2 : Renoted X false (skipn (k + length g + length text) s) (skipn (k' + length g' + length text') s')).
      { rewrite (skipn_more _ _ text rest (skipn_more _ _ g _ E)), (skipn_more _ _ text' rest' (skipn_more _ _ g' _ E')). exact R1. }
      specialize (IH _ _ _ _ _ _ false (mkTok tk (posAt s (k + length g)) lit) (mkTok tk (posAt s' (k' + length g')) lit') S1 S1' R2).
      assert (H := IH ltac:(intros _; split; [split; auto|]; split; eapply prevOk_next; eauto) HE1). clear IH.
      destruct (scans X n l1) as [[us m]| | |], (scans X n l1') as [[us' m']| | |]; cbn [rbind relRes fst snd] in *; auto.
      destruct H as [HA HX]. split; auto. destruct first; auto. destruct (HF eq_refl) as (F1 & F2 & F3). constructor; auto.
      intros TK. cbn [tTok] in TK. rewrite (line_iff s k t g text rest tk lit E F2), (line_iff s' k' t' g' text' rest' tk lit' E' F3).
      specialize (HC eq_refl TK). tauto. }
    assert (LEX : forall g g' tk text lit rest text' lit' rest', skipn k s = g ++ text ++ rest -> skipn k' s' = g' ++ text' ++ rest' -> allBlank g -> allBlank g' ->
      Lexed X tk text lit rest -> Lexed X tk text' lit' rest' -> (tk <> COMMENT -> lit = lit') -> (openText text rest <-> openText text' rest') ->
      (first = false -> tk = COMMENT -> (In 10 g <-> In 10 g')) -> Renoted X false rest rest' ->
      relRes (fun a b => Similar (if first then fst a else t :: fst a) (if first then fst b else t' :: fst b) /\ (errors (snd a) = [] <-> errors (snd b) = []))
        (scans X (S n) l) (scans X (S n) l')).
    { intros g g' tk text lit rest text' lit' rest' E1 E2 B B' LX LX' MB OP HC HR1.
      destruct (scan_full_err X s l k HS) as [[_ N]|(g1 & tk1 & text1 & lit1 & rest1 & l1 & N1 & N2 & N3 & SC & S1 & N4 & ER & U)]; [exfalso; exact (N _ _ _ _ _ E1 B LX)|].
      destruct (U _ _ _ _ _ E1 B LX) as (<- & <- & <- & <- & <-).
      destruct (scan_full_err X s' l' k' HS') as [[_ N']|(g1 & tk1 & text1 & lit1 & rest1 & l1' & N1' & N2' & N3' & SC' & S1' & N4' & ER' & U')]; [exfalso; exact (N' _ _ _ _ _ E2 B' LX')|].
      destruct (U' _ _ _ _ _ E2 B' LX') as (<- & <- & <- & <- & <-).
      apply (STEP g tk text lit rest l1 g' text' lit' rest' l1'); auto.
      destruct ER as [[R1 ->]|[R1 R2]], ER' as [[R1' ->]|[R1' R2']]; auto; tauto. }
    inversion HR as [first0 g g' B B' E0 E1 E2|first0 u u' N N' E0 E1 E2|first0 g g' tk text lit rest rest' B B' NE LX LX' HC HR1 E0 E1 E2|first0 g g' c c' rest rest' B B' NC NC' RE RE' HC HR1 E0 E1 E2]; subst first0.
    + subst g g'. set (g := skipn k s) in *. set (g' := skipn k' s') in *.
      destruct (blank_end_scan X s l k g HS eq_refl B) as (l1 & SC & S1 & EE & K). destruct (blank_end_scan X s' l' k' g' HS' eq_refl B') as (l1' & SC' & S1' & EE' & K').
      apply (STEP g EOF [] [] [] l1 g' [] [] [] l1'); auto; try (now rewrite !app_nil_r); try (cbn [length]; now rewrite Nat.add_0_r); try discriminate.
      * constructor; constructor.
      * rewrite EE, EE'. exact HE.
    + destruct (scan_full_err X s l k HS) as [[SC _]|(g & tk & text & lit & rest & l1 & N1 & N2 & N3 & _)]; [|exfalso; exact (N _ _ _ _ _ N1 N2 N3)].
      destruct (scan_full_err X s' l' k' HS') as [[SC' _]|(g & tk & text & lit & rest & l1 & N1 & N2 & N3 & _)]; [|exfalso; exact (N' _ _ _ _ _ N1 N2 N3)].
      cbn [scans]. rewrite SC, SC'. exact I.
    + apply (LEX g g' tk text lit rest text lit rest'); auto. split; eapply open_same; eassumption.
    + apply (LEX g g' COMMENT (59 :: c) c rest (59 :: c') c' rest'); auto; try (now constructor); [congruence|].
      split; intros (a & _ & K & _); discriminate K.
Qed.

(** C104. Sources that differ only in the texts of comments are parsed to the same outcome,
    these apart. *)
Theorem C104_parsed : forall X s s' e e', decodable s -> decodable s' -> Renoted X true s s' -> map noteDef e = map noteDef e' ->
  sameBarNotes (parseSource X (parseFuel s) s e) (parseSource X (parseFuel s') s' e').
Proof.
  intros X s s' e e' D D' HR HD.
  assert (H : forall n, relRes (fun a b => Similar (fst a) (fst b) /\ (errors (snd a) = [] <-> errors (snd b) = [])) (scans X n (newLexer s)) (scans X n (newLexer s'))).
  { intros n. apply (renote_scans X n s s' (newLexer s) (newLexer s') 0 0 true zeroTok zeroTok); auto using newLexer_st; [discriminate|].
    destruct (newLexer_at s D) as (_ & -> & _), (newLexer_at s' D') as (_ & -> & _). tauto. }
  apply tokens_simi; auto.
  - intros n. specialize (H n). destruct (scans X n (newLexer s)) as [[? ?]| | |], (scans X n (newLexer s')) as [[? ?]| | |]; cbn [relRes] in *; auto. apply H.
  - intros t l t' l' E E'. specialize (H 2%nat). rewrite E, E' in H. apply H.
Qed.

(** ** The generator *)

Lemma comment_note : forall n, isComment (note n) = isComment n.
Proof. now destruct n. Qed.

Lemma comment_strip : forall n, isComment (strip n) = isComment n.
Proof. now destruct n. Qed.

Lemma uncomment_note : forall n, uncomment (note n) = uncomment (strip n).
Proof.
  fix IH 1.
  assert (L : forall l, map uncomment (map note l) = map uncomment (map strip l)).
  { fix L 1. intros l. destruct l as [|n l]; [reflexivity|]. cbn [map]. now rewrite (IH n), (L l). }
  assert (F : forall l, flat_map (fun n => if isComment n then [] else [uncomment n]) (map note l) = flat_map (fun n => if isComment n then [] else [uncomment n]) (map strip l)).
  { fix F 1. intros l. destruct l as [|n l]; [reflexivity|]. cbn [map flat_map]. rewrite (F l), (IH n), comment_note, comment_strip. reflexivity. }
  intros n. destruct n; try reflexivity; cbn [note strip uncomment]; rewrite ?L, ?F, ?IH; reflexivity.
Qed.

Definition kept (n : node) : list node := if isComment n then [] else [uncomment n].

Lemma kept_top : forall n, kept (noteTop n) = kept (strip n).
Proof.
  intros n. unfold kept. destruct (isComment n) eqn:E; [destruct n; try discriminate E; reflexivity|].
  assert (K : noteTop n = note n) by (destruct n; try discriminate E; reflexivity). now rewrite K, comment_note, comment_strip, uncomment_note.
Qed.

Lemma plain_note : forall a b, noteFile a = noteFile b -> plain a = plain b.
Proof.
  assert (G : forall n, plain n = match noteFile n with NCDDL p l => NCDDL z (flat_map kept l) | m => uncomment m end).
  { intros n. unfold plain. destruct n; try (rewrite <- uncomment_note; reflexivity).
    cbn [strip uncomment noteFile]. f_equal. induction rules as [|r l IH]; [reflexivity|]. cbn [map flat_map]. rewrite IH. f_equal. symmetry. apply kept_top. }
  intros a b H. rewrite (G a), (G b). now rewrite H.
Qed.

Lemma notes_drawn : forall a b, sameBarNotes a b -> drawn a b.
Proof.
  intros a b H. destruct a as [[[t ds] p]| | |], b as [[[t' ds'] p']| | |]; cbn in *; auto; try contradiction.
  destruct H as (HT & HD & _). destruct ds as [ds|], ds' as [ds'|]; try discriminate HD.
  - injection HD as HD. apply (f_equal (@length _)) in HD. now rewrite !map_length in HD.
  - destruct t as [t|], t' as [t'|]; try discriminate HT; auto. injection HT as HT. cbn [rootNode]. now apply plain_note.
Qed.

(** The same file is generated, and everything else that [generate] does is the same. *)
Theorem C104_generated : forall X C s s', decodable s -> decodable s' -> Renoted X true s s' -> sameFile X C s s' /\ sameRun X C s s'.
Proof.
  intros X C s s' D D' H. assert (K : drawn (parse X s) (parse X s')) by (apply notes_drawn; unfold parse; now apply C104_parsed).
  split; [now apply drawn_file|now apply drawn_run].
Qed.

(** ** Examples *)

Definition src1 : bytes := str ";x" ++ 10 :: str "a=(b:int);c".
Definition src2 : bytes := str ";other" ++ 10 :: str "a=(b:int) ; = {".

Definition out1 : res (fileResult * parser) := Eval vm_compute in parse X0 src1.
Definition out2 : res (fileResult * parser) := Eval vm_compute in parse X0 src2.

Lemma out1_is : parse X0 src1 = out1.
Proof. vm_compute. reflexivity. Qed.

Lemma out2_is : parse X0 src2 = out2.
Proof. vm_compute. reflexivity. Qed.

(** Comments before and after a rule; the trees differ in their texts, the files do not. *)
Lemma src_renoted : Renoted X0 true src1 src2.
Proof.
  apply (rn_comment X0 true [] [] (str "x") (str "other") (10 :: str "a=(b:int);c") (10 :: str "a=(b:int) ; = {")); [gaps|gaps|cbn; intuition discriminate|cbn; intuition discriminate|now right|now right|discriminate|].
  apply (rn_lexeme X0 false [10] [10] IDENT (str "a") (str "a") (str "=(b:int);c") (str "=(b:int) ; = {")); [gaps|gaps|discriminate|lexed|lexed|discriminate|].
  apply (rn_lexeme X0 false [] [] ASSIGN (str "=") (str "=") (str "(b:int);c") (str "(b:int) ; = {")); [gaps|gaps|discriminate|lexed|lexed|discriminate|].
  apply (rn_lexeme X0 false [] [] LPAREN (str "(") (str "(") (str "b:int);c") (str "b:int) ; = {")); [gaps|gaps|discriminate|lexed|lexed|discriminate|].
  apply (rn_lexeme X0 false [] [] IDENT (str "b") (str "b") (str ":int);c") (str ":int) ; = {")); [gaps|gaps|discriminate|lexed|lexed|discriminate|].
  apply (rn_lexeme X0 false [] [] COLON (str ":") (str ":") (str "int);c") (str "int) ; = {")); [gaps|gaps|discriminate|lexed|lexed|discriminate|].
  apply (rn_lexeme X0 false [] [] INT (str "int") (str "int") (str ");c") (str ") ; = {")); [gaps|gaps|discriminate|lexed|lexed|discriminate|].
  apply (rn_lexeme X0 false [] [] RPAREN (str ")") (str ")") (str ";c") (str " ; = {")); [gaps|gaps|discriminate|lexed|lexed|discriminate|].
  apply (rn_comment X0 false [] [32] (str "c") (str " = {") [] []); [gaps|gaps|cbn; intuition discriminate|cbn; intuition discriminate|now left|now left|intros _; cbn; intuition discriminate|].
  apply rn_end; gaps.
Qed.

Example C104_ex : exists t t' p p' text, decodable src1 /\ decodable src2 /\ Renoted X0 true src1 src2 /\
  parse X0 src1 = Ok ((Some t, None), p) /\ parse X0 src2 = Ok ((Some t', None), p') /\ strip t <> strip t' /\
  Compiled X0 sampleCli (str "main") src1 text /\ Compiled X0 sampleCli (str "main") src2 text.
Proof.
  rewrite out1_is, out2_is. do 4 eexists. exists (fileText sampleCli (newGenerator [])).
  assert (D1 : decodable src1) by now apply good_by_ascii. assert (D2 : decodable src2) by now apply good_by_ascii.
  pose proof src_renoted as R.
  assert (K : Compiled X0 sampleCli (str "main") src1 (fileText sampleCli (newGenerator []))).
  { do 3 eexists. split; [rewrite out1_is; reflexivity|]. split; [vm_compute; reflexivity|reflexivity]. }
  split; [exact D1|]. split; [exact D2|]. split; [exact R|]. split; [reflexivity|]. split; [reflexivity|]. split; [cbn; discriminate|].
  split; [exact K|]. now apply (proj1 (C104_generated X0 sampleCli src1 src2 D1 D2 R)).
Qed.
