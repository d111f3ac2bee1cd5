(** Property C89: names. What ParseFile makes of a source does not depend on which names it
    uses, only on which of them are the same and which begin with a dollar sign. *)
From Coq Require Import String.
From Verif Require Import Base Utf8 Token Strconv Ext Lexer LexSpec LexSpec2 LexSpec3 LexerProofs LexOne LexSeq LexWords Ast Env Diag Parser Doc ParseTwin ParseFacts ParseLayout ParseRename
  Props_Lexer Props_LexFull Props_Parser Props_Layout.
Open Scope string_scope.
Open Scope list_scope.
Open Scope Z_scope.

(** ** Specification *)

(** The same lexemes, names replaced by their other names; the blanks as in C84. *)
Inductive Rewrite (X : Ext) (f : bytes -> bytes) : bool -> bytes -> bytes -> Prop :=
| rw_end first g g' : allBlank g -> allBlank g' -> Rewrite X f first g g'
| rw_none first s s' : noToken X s -> noToken X s' -> Rewrite X f first s s'
| rw_lexeme first g g' tk text lit rest rest' : allBlank g -> allBlank g' -> text <> [] -> tk <> IDENT ->
    Lexed X tk text lit rest -> Lexed X tk text lit rest' ->
    (first = false -> tk = COMMENT -> (In 10 g <-> In 10 g')) ->
    Rewrite X f false rest rest' -> Rewrite X f first (g ++ text ++ rest) (g' ++ text ++ rest')
| rw_name first g g' w rest rest' : allBlank g -> allBlank g' ->
    Lexed X IDENT w w rest -> Lexed X IDENT (f w) (f w) rest' ->
    Rewrite X f false rest rest' -> Rewrite X f first (g ++ w ++ rest) (g' ++ f w ++ rest').

(** The same outcome, names and positions apart. *)
Definition renamedOutcome (f : bytes -> bytes) (a b : res (fileResult * parser)) : Prop :=
  match a, b with
  | Ok ((t, ds), p), Ok ((t', ds'), p') =>
    option_map (fun n => strip (ren f n)) t = option_map strip t' /\
    option_map (map (fun d => bare (renDiag f d))) ds = option_map (map bare) ds' /\
    map (fun b => bareDef (renDef f b)) (env p) = map bareDef (env p')
  | Panic, Panic => True
  | _, _ => False
  end.

(** ** Sources with the same tokens *)

Theorem C89_tokens : forall X f s s' e e', Naming f -> decodable s -> decodable s' ->
  (forall n, match scans X n (newLexer s), scans X n (newLexer s') with
             | Ok (ts, _), Ok (ts', _) => Renamed f ts ts'
             | Panic, Panic => True
             | _, _ => False
             end) ->
  (forall t l t' l', scans X 2 (newLexer s) = Ok (t, l) -> scans X 2 (newLexer s') = Ok (t', l') -> (errors l = [] <-> errors l' = [])) ->
  map (fun b => bareDef (renDef f b)) e = map bareDef e' ->
  renamedOutcome f (parseSource X (parseFuel s) s e) (parseSource X (parseFuel s') s' e').
Proof.
  intros X f s s' e e' NM D D' HS HE HD.
  destruct (C14_terminates X s e D) as (r & N1 & N2 & HR), (C14_terminates X s' e' D') as (r' & N1' & N2' & HR').
  rewrite (HR (parseFuel s)), (HR' (parseFuel s')) by apply Nat.le_refl.
  assert (H := parseSource_akin f NM X (Nat.max (parseFuel s) (parseFuel s')) s s' e e').
  rewrite (HR (Nat.max _ _)), (HR' (Nat.max _ _)) in H by (auto using Nat.le_max_l, Nat.le_max_r).
  assert (K : relRes (akinOut f) r r').
  { apply H; auto. intros n. specialize (HS n). destruct (scans X n (newLexer s)) as [[? ?]| | |], (scans X n (newLexer s')) as [[? ?]| | |]; try contradiction; auto. }
  destruct r as [[[t ds] p]| | |], r' as [[[t' ds'] p']| | |]; cbn [relRes renamedOutcome] in *; auto.
  destruct K as (K1 & K2 & _ & K3 & _). auto.
Qed.

(** ** Sources with the same lexemes *)

Lemma ident_not_open : forall X w lit rest r, Lexed X IDENT w lit rest -> ~ openText w r.
Proof.
  intros X w lit rest r H (a & N & E & N34 & N10 & _). subst w. inversion H; subst.
  - match goal with K : identStart 34 |- _ => unfold identStart in K; lia end.
  - match goal with K : In _ punctTable |- _ => cbn in K; repeat (destruct K as [K|K]; [discriminate K|]); exact K end.
Qed.

Lemma rewrite_scans : forall X f n s s' l l' k k' first t t', St s l k -> St s' l' k' -> Rewrite X f first (skipn k s) (skipn k' s') ->
  (first = false -> renTok f t t' /\ prevOk s k t /\ prevOk s' k' t') -> (errors l = [] <-> errors l' = []) ->
  relRes (fun a b => Renamed f (if first then fst a else t :: fst a) (if first then fst b else t' :: fst b) /\ (errors (snd a) = [] <-> errors (snd b) = []))
    (scans X n l) (scans X n l').
Proof.
  intros X f. induction n as [|n IH]; intros s s' l l' k k' first t t' HS HS' HR HF HE.
  - cbn [scans relRes fst snd]. split; auto. destruct first; [constructor|]. destruct HF as (H1 & _); auto. now constructor.
  - assert (STEP : forall g tk text lit rest l1 g' text' lit' rest' l1', skipn k s = g ++ text ++ rest -> skipn k' s' = g' ++ text' ++ rest' -> ~ In 10 text -> ~ In 10 text' ->
      St s l1 (k + length g + length text) -> St s' l1' (k' + length g' + length text') -> Rewrite X f false rest rest' ->
      (if teq tk IDENT then f lit else lit) = lit' ->
      (first = false -> tk = COMMENT -> (In 10 g <-> In 10 g')) -> (errors l1 = [] <-> errors l1' = []) ->
      scan X l = Ok (mkTok tk (posAt s (k + length g)) lit, l1) -> scan X l' = Ok (mkTok tk (posAt s' (k' + length g')) lit', l1') ->
      relRes (fun a b => Renamed f (if first then fst a else t :: fst a) (if first then fst b else t' :: fst b) /\ (errors (snd a) = [] <-> errors (snd b) = []))
        (scans X (S n) l) (scans X (S n) l')).
    { intros g tk text lit rest l1 g' text' lit' rest' l1' E E' N N' S1 S1' R1 EL HC HE1 SC SC'. cbn [scans]. rewrite SC, SC'. cbn [rbind].
      assert (R2 : Rewrite X f false (skipn (k + length g + length text) s) (skipn (k' + length g' + length text') s')).
      { rewrite (skipn_more _ _ text rest (skipn_more _ _ g _ E)), (skipn_more _ _ text' rest' (skipn_more _ _ g' _ E')). exact R1. }
      specialize (IH _ _ _ _ _ _ false (mkTok tk (posAt s (k + length g)) lit) (mkTok tk (posAt s' (k' + length g')) lit') S1 S1' R2).
      assert (H := IH ltac:(intros _; split; [split; [reflexivity|exact EL]|]; split; eapply prevOk_next; eauto) HE1). clear IH.
      destruct (scans X n l1) as [[us m]| | |], (scans X n l1') as [[us' m']| | |]; cbn [rbind relRes fst snd] in *; auto.
      destruct H as [HA HX]. split; auto. destruct first; auto. destruct (HF eq_refl) as (F1 & F2 & F3). constructor; auto.
      intros TK. cbn [tTok] in TK. rewrite (line_iff s k t g text rest tk lit E F2), (line_iff s' k' t' g' text' rest' tk lit' E' F3).
      specialize (HC eq_refl TK). tauto. }
    inversion HR as [first0 g g' B B' E0 E1 E2|first0 u u' N N' E0 E1 E2|first0 g g' tk text lit rest rest' B B' NE NI LX LX' HC HR1 E0 E1 E2|first0 g g' w rest rest' B B' LX LX' HR1 E0 E1 E2]; subst first0.
    + subst g g'. set (g := skipn k s) in *. set (g' := skipn k' s') in *.
      destruct (blank_end_scan X s l k g HS eq_refl B) as (l1 & SC & S1 & EE & K). destruct (blank_end_scan X s' l' k' g' HS' eq_refl B') as (l1' & SC' & S1' & EE' & K').
      apply (STEP g EOF [] [] [] l1 g' [] [] [] l1'); auto; try (now rewrite !app_nil_r); try (cbn [length]; now rewrite Nat.add_0_r); try discriminate.
      * constructor; constructor.
      * rewrite EE, EE'. exact HE.
    + destruct (scan_full_err X s l k HS) as [[SC _]|(g & tk & text & lit & rest & l1 & N1 & N2 & N3 & _)]; [|exfalso; exact (N _ _ _ _ _ N1 N2 N3)].
      destruct (scan_full_err X s' l' k' HS') as [[SC' _]|(g & tk & text & lit & rest & l1 & N1 & N2 & N3 & _)]; [|exfalso; exact (N' _ _ _ _ _ N1 N2 N3)].
      cbn [scans]. rewrite SC, SC'. exact I.
    + symmetry in E1, E2.
      destruct (scan_full_err X s l k HS) as [[_ N]|(g1 & tk1 & text1 & lit1 & rest1 & l1 & N1 & N2 & N3 & SC & S1 & N4 & ER & U)]; [exfalso; exact (N _ _ _ _ _ E1 B LX)|].
      destruct (U _ _ _ _ _ E1 B LX) as (<- & <- & <- & <- & <-).
      destruct (scan_full_err X s' l' k' HS') as [[_ N']|(g1 & tk1 & text1 & lit1 & rest1 & l1' & N1' & N2' & N3' & SC' & S1' & _ & ER' & U')]; [exfalso; exact (N' _ _ _ _ _ E2 B' LX')|].
      destruct (U' _ _ _ _ _ E2 B' LX') as (<- & <- & <- & <- & <-).
      apply (STEP g tk text lit rest l1 g' text lit rest' l1'); auto.
      * apply teq_false in NI. now rewrite NI.
      * pose proof (open_same X _ _ _ _ _ LX LX') as O1. pose proof (open_same X _ _ _ _ _ LX' LX) as O2.
        destruct ER as [[R1 ->]|[R1 R2]], ER' as [[R1' ->]|[R1' R2']]; auto; tauto.
    + symmetry in E1, E2.
      destruct (scan_full_err X s l k HS) as [[_ N]|(g1 & tk1 & text1 & lit1 & rest1 & l1 & N1 & N2 & N3 & SC & S1 & N4 & ER & U)]; [exfalso; exact (N _ _ _ _ _ E1 B LX)|].
      destruct (U _ _ _ _ _ E1 B LX) as (<- & <- & <- & <- & <-).
      destruct (scan_full_err X s' l' k' HS') as [[_ N']|(g1 & tk1 & text1 & lit1 & rest1 & l1' & N1' & N2' & N3' & SC' & S1' & N4' & ER' & U')]; [exfalso; exact (N' _ _ _ _ _ E2 B' LX')|].
      destruct (U' _ _ _ _ _ E2 B' LX') as (<- & <- & <- & <- & <-).
      apply (STEP g IDENT w w rest l1 g' (f w) (f w) rest' l1'); auto; try discriminate.
      pose proof (ident_not_open X _ _ _ rest LX) as O1. pose proof (ident_not_open X _ _ _ rest' LX') as O2.
      destruct ER as [[R1 ->]|[R1 R2]], ER' as [[R1' ->]|[R1' R2']]; auto; tauto.
Qed.

(** C89. A source and the same source with other names have the same outcome, the names
    in it apart. *)
Theorem C89_names : forall X f s s' e e', Naming f -> decodable s -> decodable s' -> Rewrite X f true s s' ->
  map (fun b => bareDef (renDef f b)) e = map bareDef e' ->
  renamedOutcome f (parseSource X (parseFuel s) s e) (parseSource X (parseFuel s') s' e').
Proof.
  intros X f s s' e e' NM D D' HR HD.
  assert (H : forall n, relRes (fun a b => Renamed f (fst a) (fst b) /\ (errors (snd a) = [] <-> errors (snd b) = [])) (scans X n (newLexer s)) (scans X n (newLexer s'))).
  { intros n. apply (rewrite_scans X f n s s' (newLexer s) (newLexer s') 0 0 true zeroTok zeroTok); auto using newLexer_st; [discriminate|].
    destruct (newLexer_at s D) as (_ & -> & _), (newLexer_at s' D') as (_ & -> & _). tauto. }
  apply C89_tokens; auto.
  - intros n. specialize (H n). destruct (scans X n (newLexer s)) as [[? ?]| | |] eqn:E, (scans X n (newLexer s')) as [[? ?]| | |]; cbn [relRes] in H; try contradiction; auto; try tauto.
    + apply (proj1 (scans_end X n s _ _ (newLexer_st s D)) E).
    + apply (proj2 (scans_end X n s _ _ (newLexer_st s D)) E).
  - intros t l t' l' E E'. specialize (H 2%nat). rewrite E, E' in H. apply H.
Qed.

(** ** Lexemes apart from each other *)

Definition renItem (f : bytes -> bytes) (it : bytes * token * bytes * bytes) : bytes * token * bytes * bytes :=
  let '(g, tk, text, lit) := it in if teq tk IDENT then (g, tk, f text, f lit) else it.

Lemma spaced_lexed : forall X tk text lit rest items, lexeme tk text lit -> ends tk rest -> spaced rest items -> Lexed X tk text lit rest.
Proof.
  intros X tk text lit rest items H1 H2 H3. pose proof (spaced_good _ _ H3) as GR. destruct (lexeme_lex X _ _ _ _ H1 H2 GR) as (L1 & L2 & L3).
  eapply lexed_by; [|destruct text; [congruence|exact L3]|exact L1]. apply good_app; auto. eapply lexeme_good; eauto.
Qed.

Lemma spaced_rewrite : forall X f items s s' first, spaced s items -> spaced s' (map (renItem f) items) -> Rewrite X f first s s'.
Proof.
  intros X f. induction items as [|[[[g tk] text] lit] items IH]; intros s s' first H H'.
  - cbn [map] in H'. inversion H; inversion H'; subst. now apply rw_end.
  - cbn [map] in H'. inversion H as [|? ? ? ? rest ? B LX E S]; subst. pose proof (spaced_lexed X _ _ _ _ _ LX E S) as L.
    assert (NE : text <> []) by (destruct (lexeme_lex X _ _ _ _ LX E (spaced_good _ _ S)) as (_ & K & _); exact K).
    unfold renItem in H'. destruct (teq tk IDENT) eqn:TI; fold (renItem f) in H'.
    + apply teq_true in TI. subst tk. inversion H' as [|? ? ? ? rest' ? B' LX' E' S']; subst. pose proof (spaced_lexed X _ _ _ _ _ LX' E' S') as L'.
      assert (EL : lit = text).
      { inversion LX; subst; auto. }
      subst lit. apply rw_name; auto.
    + apply teq_false in TI. inversion H' as [|? ? ? ? rest' ? B' LX' E' S']; subst. pose proof (spaced_lexed X _ _ _ _ _ LX' E' S') as L'.
      apply rw_lexeme with (tk := tk) (lit := lit); auto. tauto.
Qed.

(** C89 for sources with blanks between all lexemes: the names are replaced in the text. *)
Theorem C89_spaced : forall X f items s s' e e', Naming f -> spaced s items -> spaced s' (map (renItem f) items) ->
  map (fun b => bareDef (renDef f b)) e = map bareDef e' ->
  renamedOutcome f (parseSource X (parseFuel s) s e) (parseSource X (parseFuel s') s' e').
Proof.
  intros X f items s s' e e' NM H H' HD. apply C89_names; auto.
  - eapply spaced_good; eauto.
  - eapply spaced_good; eauto.
  - eapply spaced_rewrite; eauto.
Qed.

(** Two names exchanged. *)
Definition swap (a b w : bytes) : bytes := if beq w a then b else if beq w b then a else w.

Lemma swap_naming : forall a b, identStart (hd 0 a) -> identStart (hd 0 b) -> (hd 0 a = 36 <-> hd 0 b = 36) -> Naming (swap a b).
Proof.
  assert (Q : forall a b w, swap a b w = if list_eq_dec Z.eq_dec w a then b else if list_eq_dec Z.eq_dec w b then a else w).
  { intros a b w. unfold swap. destruct (beq w a) eqn:E1, (list_eq_dec Z.eq_dec w a) as [E2|E2]; auto.
    - now apply beq_eq in E1.
    - apply beq_eq in E2. congruence.
    - destruct (beq w b) eqn:E3, (list_eq_dec Z.eq_dec w b) as [E4|E4]; auto; [now apply beq_eq in E3|apply beq_eq in E4; congruence]. }
  intros a b Ha Hb HD. split.
  - intros v w. rewrite !Q. destruct (list_eq_dec Z.eq_dec v a), (list_eq_dec Z.eq_dec w a), (list_eq_dec Z.eq_dec v b), (list_eq_dec Z.eq_dec w b); congruence.
  - intros w. rewrite Q. destruct (list_eq_dec Z.eq_dec w a) as [->|]; [tauto|]. destruct (list_eq_dec Z.eq_dec w b) as [->|]; tauto.
  - intros w N. rewrite Q. destruct (list_eq_dec Z.eq_dec w a) as [->|]; [tauto|]. destruct (list_eq_dec Z.eq_dec w b) as [->|]; tauto.
Qed.

(** Has the source been parsed without diagnostics? *)
Definition faultless (a : res (fileResult * parser)) : bool := match a with Ok ((Some _, None), _) => true | _ => false end.

(** A source is accepted under all names or under none. *)
Theorem C89_accepted : forall f a b, renamedOutcome f a b -> faultless a = faultless b.
Proof.
  intros f a b H. destruct a as [[[[t|] [ds|]] p]| | |], b as [[[[t'|] [ds'|]] p']| | |]; cbn [renamedOutcome option_map] in H; try contradiction; try reflexivity;
    destruct H as (H1 & H2 & _); try discriminate H1; discriminate H2.
Qed.

Ltac blanks := repeat (apply Forall_cons; [unfold blank; lia|]); apply Forall_nil.
Ltac lexes := eapply lexed_by; [now apply good_by_ascii|cbn; unfold blank; lia|vm_compute; reflexivity].
Ltac piece X f g g' tk text rest rest' :=
  apply (rw_lexeme X f _ g g' tk text text rest rest'); [blanks|blanks|discriminate|discriminate|lexes|lexes|discriminate|].
Ltac name X f g g' w rest rest' := apply (rw_name X f _ g g' w rest rest'); [blanks|blanks|lexes|lexes|].

(** A source with three rules, one of them a second rule for a name, and with a name that is
    not defined; the name defined twice gets another name. *)
Example C89_ex : exists f s s' t ds p, Naming f /\ decodable s /\ decodable s' /\ Rewrite X0 f true s s' /\ f (str "b") = str "other" /\
  parseSource X0 (parseFuel s) s [] = Ok ((Some t, Some ds), p) /\ map dMsg ds = [MExisting (str "b") 2 4; MNotExist (str "c")] /\
  (exists t' ds' p', parseSource X0 (parseFuel s') s' [] = Ok ((Some t', Some ds'), p') /\ map dMsg ds' = [MExisting (str "other") 2 7; MNotExist (str "c")]).
Proof.
  exists (swap (str "b") (str "other")), (str "a=[b,c]" ++ 10 :: str "b= 1 b=a"), (str "a= [other,c]" ++ 10 :: str "other=1 other=a").
  do 3 eexists. split; [apply swap_naming; unfold identStart; cbn; lia|]. split; [now apply good_by_ascii|]. split; [now apply good_by_ascii|]. split.
  { set (f := swap (str "b") (str "other")).
    name X0 f (@nil Z) (@nil Z) (str "a") (str "=[b,c]" ++ 10 :: str "b= 1 b=a") (str "= [other,c]" ++ 10 :: str "other=1 other=a").
    piece X0 f (@nil Z) (@nil Z) ASSIGN (str "=") (str "[b,c]" ++ 10 :: str "b= 1 b=a") (str " [other,c]" ++ 10 :: str "other=1 other=a").
    piece X0 f (@nil Z) [32] LBRACK (str "[") (str "b,c]" ++ 10 :: str "b= 1 b=a") (str "other,c]" ++ 10 :: str "other=1 other=a").
    name X0 f (@nil Z) (@nil Z) (str "b") (str ",c]" ++ 10 :: str "b= 1 b=a") (str ",c]" ++ 10 :: str "other=1 other=a").
    piece X0 f (@nil Z) (@nil Z) COMMA (str ",") (str "c]" ++ 10 :: str "b= 1 b=a") (str "c]" ++ 10 :: str "other=1 other=a").
    name X0 f (@nil Z) (@nil Z) (str "c") (str "]" ++ 10 :: str "b= 1 b=a") (str "]" ++ 10 :: str "other=1 other=a").
    piece X0 f (@nil Z) (@nil Z) RBRACK (str "]") (10 :: str "b= 1 b=a") (10 :: str "other=1 other=a").
    name X0 f [10] [10] (str "b") (str "= 1 b=a") (str "=1 other=a").
    piece X0 f (@nil Z) (@nil Z) ASSIGN (str "=") (str " 1 b=a") (str "1 other=a").
    piece X0 f [32] (@nil Z) INT (str "1") (str " b=a") (str " other=a").
    name X0 f [32] [32] (str "b") (str "=a") (str "=a").
    piece X0 f (@nil Z) (@nil Z) ASSIGN (str "=") (str "a") (str "a").
    name X0 f (@nil Z) (@nil Z) (str "a") (@nil Z) (@nil Z).
    apply rw_end; constructor. }
  split; [reflexivity|]. split; [vm_compute; reflexivity|]. split; [reflexivity|].
  do 3 eexists. split; [vm_compute; reflexivity|]. reflexivity.
Qed.

(** Different names must stay different: two names made one are a rule given twice. *)
Theorem C89_merged_refuted : exists f s s', (forall w, hd 0 (f w) = 36 <-> hd 0 w = 36) /\ (forall w, ~ identStart (hd 0 w) -> f w = w) /\
  decodable s /\ decodable s' /\ Rewrite X0 f true s s' /\
  ~ renamedOutcome f (parseSource X0 (parseFuel s) s []) (parseSource X0 (parseFuel s') s' []).
Proof.
  exists (fun w => if beq w (str "b") then str "a" else w), (str "a=1 b=2"), (str "a=1 a=2").
  split; [intros w; destruct (beq w (str "b")) eqn:E; [apply beq_eq in E; subst w; cbn; lia|tauto]|].
  split; [intros w N; destruct (beq w (str "b")) eqn:E; [apply beq_eq in E; subst w; exfalso; apply N; unfold identStart; cbn; lia|reflexivity]|].
  split; [now apply good_by_ascii|]. split; [now apply good_by_ascii|]. split.
  { set (f := fun w => if beq w (str "b") then str "a" else w).
    name X0 f (@nil Z) (@nil Z) (str "a") (str "=1 b=2") (str "=1 a=2").
    piece X0 f (@nil Z) (@nil Z) ASSIGN (str "=") (str "1 b=2") (str "1 a=2").
    piece X0 f (@nil Z) (@nil Z) INT (str "1") (str " b=2") (str " a=2").
    name X0 f [32] [32] (str "b") (str "=2") (str "=2").
    piece X0 f (@nil Z) (@nil Z) ASSIGN (str "=") (str "2") (str "2").
    piece X0 f (@nil Z) (@nil Z) INT (str "2") (@nil Z) (@nil Z).
    apply rw_end; constructor. }
  intros H. apply C89_accepted in H. revert H. vm_compute. discriminate.
Qed.

(** So must the dollar sign: a name with one need not be defined. *)
Theorem C89_dollar_refuted : exists f s s', (forall v w, f v = f w -> v = w) /\ (forall w, ~ identStart (hd 0 w) -> f w = w) /\
  decodable s /\ decodable s' /\ Rewrite X0 f true s s' /\
  ~ renamedOutcome f (parseSource X0 (parseFuel s) s []) (parseSource X0 (parseFuel s') s' []).
Proof.
  exists (swap (str "b") (str "$b")), (str "a=b"), (str "a=$b").
  split.
  { intros v w. unfold swap. destruct (beq v (str "b")) eqn:E1; [apply beq_eq in E1|]; (destruct (beq w (str "b")) eqn:E2; [apply beq_eq in E2|]);
      (destruct (beq v (str "$b")) eqn:E3; [apply beq_eq in E3|]); (destruct (beq w (str "$b")) eqn:E4; [apply beq_eq in E4|]); intros H; subst; try congruence; try discriminate;
      try (rewrite <- H in *; discriminate); try (rewrite H in *; discriminate). }
  split.
  { intros w N. unfold swap. destruct (beq w (str "b")) eqn:E; [apply beq_eq in E; subst w; exfalso; apply N; unfold identStart; cbn; lia|].
    destruct (beq w (str "$b")) eqn:E1; [apply beq_eq in E1; subst w; exfalso; apply N; unfold identStart; cbn; lia|reflexivity]. }
  split; [now apply good_by_ascii|]. split; [now apply good_by_ascii|]. split.
  { set (f := swap (str "b") (str "$b")).
    name X0 f (@nil Z) (@nil Z) (str "a") (str "=b") (str "=$b").
    piece X0 f (@nil Z) (@nil Z) ASSIGN (str "=") (str "b") (str "$b").
    name X0 f (@nil Z) (@nil Z) (str "b") (@nil Z) (@nil Z).
    apply rw_end; constructor. }
  intros H. apply C89_accepted in H. revert H. vm_compute. discriminate.
Qed.
