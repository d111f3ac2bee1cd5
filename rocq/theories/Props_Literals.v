(** Property C102: the values of literals and the texts of comments do not matter to the parser. *)
From Coq Require Import String.
From Verif Require Import Base Utf8 Token Strconv StrconvSpec Ext Lexer LexSpec LexSpec2 LexSpec3 LexerProofs LexOne LexSeq LexWords StrconvProofs Ast Env Diag Parser Doc ParseSound ParseTwin ParseLayout ParseLits
  Props_Lexer Props_LexFull Props_Parser Props_Layout Props_Says.
Open Scope string_scope.
Open Scope list_scope.
Open Scope Z_scope.

(** ** Specification *)

(** An integer that fits into an int64. *)
Definition smallInt (w : bytes) : Prop := digit (hd 0 w) /\ fits w (2 ^ 63).

(** How a number with a fraction or an exponent can be read after the sign of a tag: not as two
    numbers with a dot between them, the first or the second too large or none, or as a tag. *)
Inductive TagAs (w : bytes) : nat -> Prop :=
| ta_other : (forall a b, w = a ++ 46 :: b -> In 46 a \/ In 46 b) -> TagAs w 0
| ta_major a b : w = a ++ 46 :: b -> ~ In 46 a -> ~ In 46 b -> ~ fits a (2 ^ 64) -> TagAs w 1
| ta_number a b : w = a ++ 46 :: b -> ~ In 46 a -> ~ In 46 b -> fits a (2 ^ 64) -> ~ fits b (2 ^ 64) -> TagAs w 2
| ta_tag a b : w = a ++ 46 :: b -> ~ In 46 a -> ~ In 46 b -> fits a (2 ^ 64) -> fits b (2 ^ 64) -> TagAs w 3.

(** What may be written for a literal [w] of a token of kind [k]: for comments and texts anything, for
    integers that fit such integers, and numbers that ParseFloat reads for such. *)
Inductive MayBe (X : Ext) : token -> bytes -> bytes -> Prop :=
| mb_same k w : MayBe X k w w
| mb_comment w w' : MayBe X COMMENT w w'
| mb_text w w' : MayBe X TEXT_LITERAL w w'
| mb_int w w' : smallInt w -> smallInt w' -> MayBe X INT w w'
| mb_float w w' k : digit (hd 0 w) -> digit (hd 0 w') -> xParseFloat X w <> None -> xParseFloat X w' <> None -> TagAs w k -> TagAs w' k -> MayBe X FLOAT w w'.

(** The same lexemes but for literals and comments, with other blanks between them; a comment that
    is not the first lexeme has a newline before it in both sources or in neither. *)
Inductive Reworded (X : Ext) : bool -> bytes -> bytes -> Prop :=
| rw_end first g g' : allBlank g -> allBlank g' -> Reworded X first g g'
| rw_none first s s' : noToken X s -> noToken X s' -> Reworded X first s s'
| rw_lexeme first g g' tk text lit rest text' lit' rest' : allBlank g -> allBlank g' -> text <> [] -> text' <> [] ->
    Lexed X tk text lit rest -> Lexed X tk text' lit' rest' -> MayBe X tk lit lit' -> (openText text rest <-> openText text' rest') ->
    (first = false -> tk = COMMENT -> (In 10 g <-> In 10 g')) ->
    Reworded X false rest rest' -> Reworded X first (g ++ text ++ rest) (g' ++ text' ++ rest').

(** The same outcome, positions, values of literals and texts of comments apart. *)
Definition sameShape (a b : res (fileResult * parser)) : Prop :=
  match a, b with
  | Ok ((t, ds), p), Ok ((t', ds'), p') =>
    option_map erase t = option_map erase t' /\ option_map (map eraseD) ds = option_map (map eraseD) ds' /\
    map eraseDef (env p) = map eraseDef (env p')
  | Panic, Panic => True
  | _, _ => False
  end.

(** ** Literals *)

Lemma small_good : forall w, smallInt w -> goodInt w.
Proof.
  intros w [DG (v & HV)]. destruct (digit_sign _ DG) as [N1 N2]. split; [|split].
  - cbn [isLiteral]. destruct w as [|c w]; [unfold digit in DG; cbn in DG; lia|]. cbn [hd] in DG. apply negb_true_iff. destruct (beq (c :: w) (tokenName INT)) eqn:E; auto.
    apply beq_true in E. unfold digit in DG. vm_compute in E. injection E as -> _. lia.
  - exists v. split; [now apply parseInt_iff|]. eapply value_pos; apply HV.
  - exists v. apply parseUint_iff. unfold two64. split; [apply HV|]. lia.
Qed.

Lemma tag_class : forall w k, TagAs w k -> tagClass w = Z.of_nat k.
Proof.
  intros w k H. unfold tagClass. inversion H as [H1|a b E N1 N2 F1|a b E N1 N2 F1 F2|a b E N1 N2 F1 F2]; subst k.
  - destruct (splitDot w) as [|a [|b [|? ?]]] eqn:E; auto. apply splitDot_two in E as (E & N1 & N2). destruct (H1 a b E); contradiction.
  - assert (K : splitDot w = [a; b]) by (now apply splitDot_two). rewrite K. destruct (parseUint a) as [er|v] eqn:U; auto.
    exfalso. apply F1. exists v. now apply parseUint_iff.
  - assert (K : splitDot w = [a; b]) by (now apply splitDot_two). rewrite K. destruct (parseUint a) as [er|v] eqn:U; [exfalso; exact (noUint _ _ U F1)|].
    destruct (parseUint b) as [er|v'] eqn:U'; auto. exfalso. apply F2. exists v'. now apply parseUint_iff.
  - assert (K : splitDot w = [a; b]) by (now apply splitDot_two). rewrite K. destruct (parseUint a) as [er|v] eqn:U; [exfalso; exact (noUint _ _ U F1)|].
    destruct (parseUint b) as [er|v'] eqn:U'; auto. exfalso; exact (noUint _ _ U' F2).
Qed.

Lemma digit_float : forall w, digit (hd 0 w) -> isLiteral FLOAT w = true.
Proof.
  intros w DG. cbn [isLiteral]. destruct w as [|c w]; [unfold digit in DG; cbn in DG; lia|]. cbn [hd] in DG. apply negb_true_iff.
  destruct (beq (c :: w) (tokenName FLOAT)) eqn:E; auto. apply beq_true in E. unfold digit in DG. vm_compute in E. injection E as -> _. lia.
Qed.

Lemma maybe_alike : forall X tk w w' p p', MayBe X tk w w' -> alikeTok X (mkTok tk p w) (mkTok tk p' w').
Proof.
  intros X tk w w' p p' H. split; [reflexivity|]. cbn [tTok tLit]. inversion H; subst; auto.
  - destruct tk; auto.
  - right. split; now apply small_good.
  - right. split; [now apply digit_float|]. split; [now apply digit_float|]. split; auto. split; auto.
    match goal with A : TagAs w ?k, B : TagAs w' ?k |- _ => rewrite (tag_class _ _ A), (tag_class _ _ B) end. reflexivity.
Qed.

(** ** Sources with such tokens *)

Lemma tokens_simi : forall X s s' e e', decodable s -> decodable s' ->
  (forall n, relRes (fun a b => Similar X (fst a) (fst b)) (scans X n (newLexer s)) (scans X n (newLexer s'))) ->
  (forall t l t' l', scans X 2 (newLexer s) = Ok (t, l) -> scans X 2 (newLexer s') = Ok (t', l') -> (errors l = [] <-> errors l' = [])) ->
  map eraseDef e = map eraseDef e' ->
  sameShape (parseSource X (parseFuel s) s e) (parseSource X (parseFuel s') s' e').
Proof.
  intros X s s' e e' D D' HS HE HD.
  destruct (C14_terminates X s e D) as (r & N1 & N2 & HR), (C14_terminates X s' e' D') as (r' & N1' & N2' & HR').
  rewrite (HR (parseFuel s)), (HR' (parseFuel s')) by apply Nat.le_refl.
  assert (H := parseSource_simi X (Nat.max (parseFuel s) (parseFuel s')) s s' e e').
  rewrite (HR (Nat.max _ _)), (HR' (Nat.max _ _)) in H by (auto using Nat.le_max_l, Nat.le_max_r).
  specialize (H HS HE HD). destruct r as [[[t ds] p]| | |], r' as [[[t' ds'] p']| | |]; cbn [relRes sameShape] in *; auto.
  destruct H as (K1 & K2 & _ & K3 & _). auto.
Qed.

Lemma reword_scans : forall X n s s' l l' k k' first t t', St s l k -> St s' l' k' -> Reworded X first (skipn k s) (skipn k' s') ->
  (first = false -> alikeTok X t t' /\ prevOk s k t /\ prevOk s' k' t') -> (errors l = [] <-> errors l' = []) ->
  relRes (fun a b => Similar X (if first then fst a else t :: fst a) (if first then fst b else t' :: fst b) /\ (errors (snd a) = [] <-> errors (snd b) = []))
    (scans X n l) (scans X n l').
Proof.
  intros X. induction n as [|n IH]; intros s s' l l' k k' first t t' HS HS' HR HF HE.
  - cbn [scans relRes fst snd]. split; auto. destruct first; [constructor|]. destruct HF as (H1 & _); auto. now constructor.
  - assert (STEP : forall g tk text lit rest l1 g' text' lit' rest' l1', skipn k s = g ++ text ++ rest -> skipn k' s' = g' ++ text' ++ rest' -> ~ In 10 text -> ~ In 10 text' ->
      St s l1 (k + length g + length text) -> St s' l1' (k' + length g' + length text') -> MayBe X tk lit lit' -> Reworded X false rest rest' ->
      (first = false -> tk = COMMENT -> (In 10 g <-> In 10 g')) -> (errors l1 = [] <-> errors l1' = []) ->
      scan X l = Ok (mkTok tk (posAt s (k + length g)) lit, l1) -> scan X l' = Ok (mkTok tk (posAt s' (k' + length g')) lit', l1') ->
      relRes (fun a b => Similar X (if first then fst a else t :: fst a) (if first then fst b else t' :: fst b) /\ (errors (snd a) = [] <-> errors (snd b) = []))
        (scans X (S n) l) (scans X (S n) l')).
    { intros g tk text lit rest l1 g' text' lit' rest' l1' E E' N N' S1 S1' MB R1 HC HE1 SC SC'. cbn [scans]. rewrite SC, SC'. cbn [rbind].
      assert (R2 : Reworded X false (skipn (k + length g + length text) s) (skipn (k' + length g' + length text') s')).
      { rewrite (skipn_more _ _ text rest (skipn_more _ _ g _ E)), (skipn_more _ _ text' rest' (skipn_more _ _ g' _ E')). exact R1. }
      specialize (IH _ _ _ _ _ _ false (mkTok tk (posAt s (k + length g)) lit) (mkTok tk (posAt s' (k' + length g')) lit') S1 S1' R2).
      assert (H := IH ltac:(intros _; split; [now apply maybe_alike|]; split; eapply prevOk_next; eauto) HE1). clear IH.
      destruct (scans X n l1) as [[us m]| | |], (scans X n l1') as [[us' m']| | |]; cbn [rbind relRes fst snd] in *; auto.
      destruct H as [HA HX]. split; auto. destruct first; auto. destruct (HF eq_refl) as (F1 & F2 & F3). constructor; auto.
      intros TK. cbn [tTok] in TK. rewrite (line_iff s k t g text rest tk lit E F2), (line_iff s' k' t' g' text' rest' tk lit' E' F3).
      specialize (HC eq_refl TK). tauto. }
    inversion HR as [first0 g g' B B' E0 E1 E2|first0 u u' N N' E0 E1 E2|first0 g g' tk text lit rest text' lit' rest' B B' NE NE' LX LX' MB OP HC HR1 E0 E1 E2]; subst first0.
    + subst g g'. set (g := skipn k s) in *. set (g' := skipn k' s') in *.
      destruct (blank_end_scan X s l k g HS eq_refl B) as (l1 & SC & S1 & EE & K). destruct (blank_end_scan X s' l' k' g' HS' eq_refl B') as (l1' & SC' & S1' & EE' & K').
      apply (STEP g EOF [] [] [] l1 g' [] [] [] l1'); auto; try (now rewrite !app_nil_r); try (cbn [length]; now rewrite Nat.add_0_r); try discriminate.
      * constructor.
      * constructor; constructor.
      * rewrite EE, EE'. exact HE.
    + destruct (scan_full_err X s l k HS) as [[SC _]|(g & tk & text & lit & rest & l1 & N1 & N2 & N3 & _)]; [|exfalso; exact (N _ _ _ _ _ N1 N2 N3)].
      destruct (scan_full_err X s' l' k' HS') as [[SC' _]|(g & tk & text & lit & rest & l1 & N1 & N2 & N3 & _)]; [|exfalso; exact (N' _ _ _ _ _ N1 N2 N3)].
      cbn [scans]. rewrite SC, SC'. exact I.
    + symmetry in E1, E2.
      destruct (scan_full_err X s l k HS) as [[_ N]|(g1 & tk1 & text1 & lit1 & rest1 & l1 & N1 & N2 & N3 & SC & S1 & N4 & ER & U)]; [exfalso; exact (N _ _ _ _ _ E1 B LX)|].
      destruct (U _ _ _ _ _ E1 B LX) as (<- & <- & <- & <- & <-).
      destruct (scan_full_err X s' l' k' HS') as [[_ N']|(g1 & tk1 & text1 & lit1 & rest1 & l1' & N1' & N2' & N3' & SC' & S1' & N4' & ER' & U')]; [exfalso; exact (N' _ _ _ _ _ E2 B' LX')|].
      destruct (U' _ _ _ _ _ E2 B' LX') as (<- & <- & <- & <- & <-).
      apply (STEP g tk text lit rest l1 g' text' lit' rest' l1'); auto.
      destruct ER as [[R1 ->]|[R1 R2]], ER' as [[R1' ->]|[R1' R2']]; auto; tauto.
Qed.

(** C102. Sources that differ in literals of such values and in the texts of comments are
    parsed to the same outcome, these apart. *)
Theorem C102_literals : forall X s s' e e', decodable s -> decodable s' -> Reworded X true s s' -> map eraseDef e = map eraseDef e' ->
  sameShape (parseSource X (parseFuel s) s e) (parseSource X (parseFuel s') s' e').
Proof.
  intros X s s' e e' D D' HR HD.
  assert (H : forall n, relRes (fun a b => Similar X (fst a) (fst b) /\ (errors (snd a) = [] <-> errors (snd b) = [])) (scans X n (newLexer s)) (scans X n (newLexer s'))).
  { intros n. apply (reword_scans X n s s' (newLexer s) (newLexer s') 0 0 true zeroTok zeroTok); auto using newLexer_st; [discriminate|].
    destruct (newLexer_at s D) as (_ & -> & _), (newLexer_at s' D') as (_ & -> & _). tauto. }
  apply tokens_simi; auto.
  - intros n. specialize (H n). destruct (scans X n (newLexer s)) as [[? ?]| | |], (scans X n (newLexer s')) as [[? ?]| | |]; cbn [relRes] in *; auto. apply H.
  - intros t l t' l' E E'. specialize (H 2%nat). rewrite E, E' in H. apply H.
Qed.

(** So one is accepted if the other is. *)
Theorem C102_accepted : forall X s s' e e' t p, decodable s -> decodable s' -> Reworded X true s s' -> map eraseDef e = map eraseDef e' ->
  parseSource X (parseFuel s) s e = Ok ((Some t, None), p) ->
  exists t' p', parseSource X (parseFuel s') s' e' = Ok ((Some t', None), p') /\ erase t' = erase t /\ map eraseDef (env p') = map eraseDef (env p).
Proof.
  intros X s s' e e' t p D D' HR HD E. pose proof (C102_literals X s s' e e' D D' HR HD) as H. rewrite E in H. cbn [sameShape] in H.
  destruct (parseSource X (parseFuel s') s' e') as [[[t' ds'] p']| | |]; try contradiction. destruct H as (H1 & H2 & H3).
  destruct t' as [t'|]; [|discriminate H1]. destruct ds'; [discriminate H2|]. exists t', p'. split; auto. split; [|now symmetry]. cbn in H1. congruence.
Qed.

(** ** Examples *)

(** A library that reads every number. *)
Definition XF : Ext := mkExt (fun _ => false) (fun _ => false) (fun w => Some (Z.of_nat (length w))).

Lemma fits_by : forall w m v, parseUint w = inr v -> v < m -> fits w m.
Proof. intros w m v H L. exists v. split; auto. now apply parseUint_iff. Qed.

Ltac reword tk w w' lit lit' g g' rest rest' :=
  apply (rw_lexeme XF _ g g' tk w lit rest w' lit' rest');
  [repeat (apply Forall_cons; [unfold blank; lia|]); apply Forall_nil|repeat (apply Forall_cons; [unfold blank; lia|]); apply Forall_nil|discriminate|discriminate
  |eapply lexed_by; [now apply good_by_ascii|cbn; unfold blank; lia|vm_compute; reflexivity]
  |eapply lexed_by; [now apply good_by_ascii|cbn; unfold blank; lia|vm_compute; reflexivity]| | | |].

Definition src1 : bytes := str "a=1/1.5 ;c".
Definition src2 : bytes := str "a=0x7F/22.75 ;other".

Definition out1 : res (fileResult * parser) := Eval vm_compute in parseSource XF (parseFuel src1) src1 [].
Definition out2 : res (fileResult * parser) := Eval vm_compute in parseSource XF (parseFuel src2) src2 [].

Lemma out1_is : parseSource XF (parseFuel src1) src1 [] = out1.
Proof. vm_compute. reflexivity. Qed.

Lemma out2_is : parseSource XF (parseFuel src2) src2 [] = out2.
Proof. vm_compute. reflexivity. Qed.

(** A source with an integer, a number with a fraction and a comment, and the same with others. *)
Example C102_ex : exists t p, decodable src1 /\ decodable src2 /\ Reworded XF true src1 src2 /\ parseSource XF (parseFuel src1) src1 [] = Ok ((Some t, None), p) /\
  exists t' p', parseSource XF (parseFuel src2) src2 [] = Ok ((Some t', None), p') /\ strip t' <> strip t.
Proof.
  do 2 eexists. split; [now apply good_by_ascii|]. split; [now apply good_by_ascii|]. split.
  { reword IDENT (str "a") (str "a") (str "a") (str "a") (@nil Z) (@nil Z) (str "=1/1.5 ;c") (str "=0x7F/22.75 ;other"); [apply mb_same| |discriminate|].
    { split; intros (a & _ & K & _); discriminate K. }
    reword ASSIGN (str "=") (str "=") (str "=") (str "=") (@nil Z) (@nil Z) (str "1/1.5 ;c") (str "0x7F/22.75 ;other"); [apply mb_same| |discriminate|].
    { split; intros (a & _ & K & _); discriminate K. }
    reword INT (str "1") (str "0x7F") (str "1") (str "0x7F") (@nil Z) (@nil Z) (str "/1.5 ;c") (str "/22.75 ;other"); [|split; intros (a & _ & K & _); discriminate K|discriminate|].
    { apply mb_int; (split; [vm_compute; split; discriminate|]); (eapply fits_by; [vm_compute; reflexivity|lia]). }
    reword TYPE_CHOICE (str "/") (str "/") (str "/") (str "/") (@nil Z) (@nil Z) (str "1.5 ;c") (str "22.75 ;other"); [apply mb_same| |discriminate|].
    { split; intros (a & _ & K & _); discriminate K. }
    reword FLOAT (str "1.5") (str "22.75") (str "1.5") (str "22.75") (@nil Z) (@nil Z) (str " ;c") (str " ;other"); [|split; intros (a & _ & K & _); discriminate K|discriminate|].
    { apply mb_float with (k := 3%nat); try (vm_compute; split; discriminate); try (vm_compute; discriminate).
      - apply (ta_tag _ (str "1") (str "5")); [reflexivity|cbn; lia|cbn; lia|eapply fits_by; [vm_compute; reflexivity|lia]|eapply fits_by; [vm_compute; reflexivity|lia]].
      - apply (ta_tag _ (str "22") (str "75")); [reflexivity|cbn; lia|cbn; lia|eapply fits_by; [vm_compute; reflexivity|lia]|eapply fits_by; [vm_compute; reflexivity|lia]]. }
    reword COMMENT (str ";c") (str ";other") (str "c") (str "other") [32] [32] (@nil Z) (@nil Z); [apply mb_comment| |intros _ _; tauto|apply rw_end; constructor].
    split; intros (a & _ & K & _); discriminate K. }
  rewrite out1_is, out2_is. split; [reflexivity|]. do 2 eexists. split; [reflexivity|]. cbn. discriminate.
Qed.

Definition outSmall : res (fileResult * parser) := Eval vm_compute in parseSource XF (parseFuel (str "a=1")) (str "a=1") [].
Definition outLarge : res (fileResult * parser) := Eval vm_compute in parseSource XF (parseFuel (str "a=9223372036854775808")) (str "a=9223372036854775808") [].

Lemma small_is : parseSource XF (parseFuel (str "a=1")) (str "a=1") [] = outSmall.
Proof. vm_compute. reflexivity. Qed.

Lemma large_is : parseSource XF (parseFuel (str "a=9223372036854775808")) (str "a=9223372036854775808") [] = outLarge.
Proof. vm_compute. reflexivity. Qed.

(** An integer that does not fit may not be written for one that does. *)
Theorem C102_large_refuted : exists s s' w w' a b, decodable s /\ decodable s' /\ s = a ++ w ++ b /\ s' = a ++ w' ++ b /\ Lexed XF INT w w b /\ Lexed XF INT w' w' b /\
  smallInt w /\ fits w' (2 ^ 64) /\ ~ sameShape (parseSource XF (parseFuel s) s []) (parseSource XF (parseFuel s') s' []).
Proof.
  exists (str "a=1"), (str "a=9223372036854775808"), (str "1"), (str "9223372036854775808"), (str "a="), (@nil Z).
  split; [now apply good_by_ascii|]. split; [now apply good_by_ascii|]. split; [reflexivity|]. split; [reflexivity|].
  split; [eapply lexed_by; [now apply good_by_ascii|cbn; unfold blank; lia|vm_compute; reflexivity]|].
  split; [eapply lexed_by; [now apply good_by_ascii|cbn; unfold blank; lia|vm_compute; reflexivity]|].
  split; [split; [vm_compute; split; discriminate|eapply fits_by; [vm_compute; reflexivity|lia]]|]. split; [eapply fits_by; [vm_compute; reflexivity|lia]|].
  rewrite small_is, large_is. intros H. cbn in H. destruct H as [H _]. discriminate H.
Qed.
