(** Property C84: layout. What ParseFile makes of a source depends on its tokens, not on
    the blanks between them, except for the lines of comments. *)
From Coq Require Import String.
From Verif Require Import Base Utf8 Token Strconv Ext Lexer LexSpec LexSpec2 LexSpec3 LexerProofs LexOne LexSeq LexWords Ast Env Diag Parser Doc ParseTwin ParseLayout
  Props_Lexer Props_LexFull Props_Parser.
Open Scope string_scope.
Open Scope list_scope.
Open Scope Z_scope.

(** ** Specification *)

Definition noToken (X : Ext) (s : bytes) : Prop :=
  forall g tk text lit rest, s = g ++ text ++ rest -> allBlank g -> ~ Lexed X tk text lit rest.

(** The same lexemes with other blanks between them; a comment that is not the first lexeme
    has a newline before it in both sources or in neither. Where one source has no next
    token (an unfinished text literal without a byte to drop), the other has none either. *)
Inductive Reflow (X : Ext) : bool -> bytes -> bytes -> Prop :=
| rf_end first g g' : allBlank g -> allBlank g' -> Reflow X first g g'
| rf_none first s s' : noToken X s -> noToken X s' -> Reflow X first s s'
| rf_lexeme first g g' tk text lit rest rest' : allBlank g -> allBlank g' -> text <> [] ->
    Lexed X tk text lit rest -> Lexed X tk text lit rest' ->
    (first = false -> tk = COMMENT -> (In 10 g <-> In 10 g')) ->
    Reflow X false rest rest' -> Reflow X first (g ++ text ++ rest) (g' ++ text ++ rest').

(** The same outcome, positions apart: both panic, or both return the same tree, the same
    diagnostics and leave the same definitions in the environment. *)
Definition sameOutcome (a b : res (fileResult * parser)) : Prop :=
  match a, b with
  | Ok ((t, ds), p), Ok ((t', ds'), p') =>
    option_map strip t = option_map strip t' /\ option_map (map bare) ds = option_map (map bare) ds' /\
    map bareDef (env p) = map bareDef (env p')
  | Panic, Panic => True
  | _, _ => False
  end.

(** ** Sources with the same tokens *)

Lemma tokens_like : forall X s s' e e', decodable s -> decodable s' ->
  (forall n, match scans X n (newLexer s), scans X n (newLexer s') with
             | Ok (ts, _), Ok (ts', _) => Alike ts ts'
             | Panic, Panic => True
             | _, _ => False
             end) ->
  (forall t l t' l', scans X 2 (newLexer s) = Ok (t, l) -> scans X 2 (newLexer s') = Ok (t', l') -> (errors l = [] <-> errors l' = [])) ->
  map bareDef e = map bareDef e' ->
  relRes likeOut (parseSource X (parseFuel s) s e) (parseSource X (parseFuel s') s' e').
Proof.
  intros X s s' e e' D D' HS HE HD.
  destruct (C14_terminates X s e D) as (r & N1 & N2 & HR), (C14_terminates X s' e' D') as (r' & N1' & N2' & HR').
  rewrite (HR (parseFuel s)), (HR' (parseFuel s')) by apply Nat.le_refl.
  assert (H := parseSource_like X (Nat.max (parseFuel s) (parseFuel s')) s s' e e').
  rewrite (HR (Nat.max _ _)), (HR' (Nat.max _ _)) in H by (auto using Nat.le_max_l, Nat.le_max_r).
  apply H; auto. intros n. specialize (HS n). destruct (scans X n (newLexer s)) as [[? ?]| | |], (scans X n (newLexer s')) as [[? ?]| | |]; try contradiction; auto.
Qed.

Lemma like_outcome : forall X s s' e e', decodable s -> decodable s' -> relRes likeOut (parseSource X (parseFuel s) s e) (parseSource X (parseFuel s') s' e') ->
  sameOutcome (parseSource X (parseFuel s) s e) (parseSource X (parseFuel s') s' e').
Proof.
  intros X s s' e e' D D' K. destruct (C14_terminates X s e D) as (r & N1 & N2 & HR), (C14_terminates X s' e' D') as (r' & N1' & N2' & HR').
  rewrite (HR (parseFuel s)), (HR' (parseFuel s')) in * by apply Nat.le_refl.
  destruct r as [[[t ds] p]| | |], r' as [[[t' ds'] p']| | |]; cbn [relRes sameOutcome] in *; auto.
  destruct K as (K1 & K2 & _ & K3 & _). auto.
Qed.

Theorem C84_tokens : forall X s s' e e', decodable s -> decodable s' ->
  (forall n, match scans X n (newLexer s), scans X n (newLexer s') with
             | Ok (ts, _), Ok (ts', _) => Alike ts ts'
             | Panic, Panic => True
             | _, _ => False
             end) ->
  (forall t l t' l', scans X 2 (newLexer s) = Ok (t, l) -> scans X 2 (newLexer s') = Ok (t', l') -> (errors l = [] <-> errors l' = [])) ->
  map bareDef e = map bareDef e' ->
  sameOutcome (parseSource X (parseFuel s) s e) (parseSource X (parseFuel s') s' e').
Proof. intros X s s' e e' D D' HS HE HD. apply like_outcome; auto. now apply tokens_like. Qed.

(** ** Sources with the same lexemes *)

Lemma scan_full_err : forall X s l k, St s l k ->
  (scan X l = Panic /\ noToken X (skipn k s)) \/
  (exists g tk text lit rest l1, skipn k s = g ++ text ++ rest /\ allBlank g /\ Lexed X tk text lit rest /\
     scan X l = Ok (mkTok tk (posAt s (k + length g)) lit, l1) /\ St s l1 (k + length g + length text) /\ ~ In 10 text /\
     ((~ openText text rest /\ errors l1 = errors l) \/ (openText text rest /\ errors l1 <> [])) /\
     forall g' tk' text' lit' rest', skipn k s = g' ++ text' ++ rest' -> allBlank g' -> Lexed X tk' text' lit' rest' -> g' = g /\ tk' = tk /\ text' = text /\ lit' = lit /\ rest' = rest).
Proof.
  intros X s l k HS. destruct (scan_full X s l k HS) as [[E N]|(g & tk & text & lit & rest & l1 & N & E & S1 & _ & U)].
  - left. split; auto. intros g tk text lit rest H1 H2 H3. apply (N g tk text lit rest). repeat split; auto.
  - right. exists g, tk, text, lit, rest, l1. destruct N as (N1 & N2 & N3). split; auto. split; auto. split; auto. split; auto. split; auto.
    destruct (scan_step_full X s l k HS) as [[_ E']|(_ & g2 & tk2 & text2 & lit2 & rest2 & l2 & er & H1 & H2 & H3 & H4 & H5 & H6 & H7)]; [congruence|].
    assert (EQ : mkTok tk (posAt s (k + length g)) lit = mkTok tk2 (posAt s (k + length g2)) lit2 /\ l1 = l2) by (rewrite E in H5; split; congruence).
    destruct EQ as [EQ <-]. pose proof (f_equal (fun t => pOffset (tPos t)) EQ) as EO. unfold posAt in EO. cbn [tPos pOffset] in EO.
    assert (EL : length g = length g2) by lia. pose proof (f_equal tTok EQ) as ET. pose proof (f_equal tLit EQ) as EI. cbn [tTok tLit] in ET, EI. subst tk2 lit2.
    destruct (nextIs_drop X s k g tk text lit rest ltac:(repeat split; auto)) as [T D].
    assert (G1 : Good (text ++ rest)).
    { rewrite <- D. destruct HS as [A G L Hk]. destruct (skip_at s (loopFuel l) l _ _ A G (at_len _ _ _ _ A) L) as (l3 & _ & _ & G1 & _). exact G1. }
    destruct (lexed_lexOne X _ _ _ _ N3 G1) as [er' K]. rewrite D, K in H4. injection H4 as <- <-.
    assert (rest2 = rest).
    { rewrite N1 in H1. apply (f_equal (skipn (length g))) in H1. rewrite skipn_len_app in H1. rewrite EL, skipn_len_app in H1. now apply app_inv_head in H1. }
    subst rest2. split.
    + destruct H3 as [(_ & -> & _)|(_ & _ & H3 & _)]; auto.
    + split.
      * destruct H7 as [(H7 & H8 & _)|(H7 & H8 & _)]; [left; auto|right; split; auto; rewrite H8; now destruct (errors l)].
      * intros g' tk' text' lit' rest' Q1 Q2 Q3. apply U. repeat split; auto.
Qed.

Lemma open_same : forall X tk text lit rest rest', Lexed X tk text lit rest -> Lexed X tk text lit rest' -> openText text rest -> openText text rest'.
Proof.
  intros X tk text lit rest rest' _ H (a & N & E & N34 & N10 & _). exists a. split; auto. split; auto. split; auto. split; auto. subst text.
  inversion H; subst; auto.
  - match goal with H : identStart 34 |- _ => unfold identStart, letter in H; lia end.
  - match goal with H : digit 34 |- _ => unfold digit in H; lia end.
  - match goal with H : digit 34 |- _ => unfold digit in H; lia end.
  - exfalso. match goal with H : In _ punctTable |- _ => cbn in H; repeat (destruct H as [H|H]; [discriminate H|]); exact H end.
  - exfalso. apply N34. apply in_or_app. right. now left.
  - congruence.
Qed.

Lemma newlines_app : forall a b, newlines (a ++ b) = newlines a + newlines b.
Proof. induction a as [|c a IH]; intros b; cbn [app newlines]; [reflexivity|]. rewrite IH. lia. Qed.

Lemma newlines_pos : forall a, 0 <= newlines a.
Proof. induction a as [|c a IH]; cbn [newlines]; [lia|]. destruct (c =? 10); lia. Qed.

Lemma newlines_in : forall a, newlines a = 0 <-> ~ In 10 a.
Proof.
  induction a as [|c a IH]; cbn [newlines In]; [tauto|]. pose proof (newlines_pos a). destruct (c =? 10) eqn:E.
  - apply Z.eqb_eq in E. split; [lia|]. intros K. exfalso. apply K. now left.
  - apply Z.eqb_neq in E. rewrite Z.add_0_l, IH. tauto.
Qed.

Lemma firstn_more : forall (s : bytes) k a b, skipn k s = a ++ b -> firstn (k + length a) s = firstn k s ++ a.
Proof.
  intros s. induction s as [|c s IH]; intros [|k] a b H; cbn [skipn firstn app Nat.add] in *.
  - destruct a; [reflexivity|discriminate].
  - destruct a; [reflexivity|discriminate].
  - rewrite H. now rewrite firstn_len_app.
  - f_equal. eauto.
Qed.

Lemma skipn_more : forall (s : bytes) k a b, skipn k s = a ++ b -> skipn (k + length a) s = b.
Proof.
  intros s. induction s as [|c s IH]; intros [|k] a b H; cbn [skipn app Nat.add] in *.
  - destruct a; [assumption|discriminate].
  - destruct a; [assumption|discriminate].
  - rewrite H. now rewrite skipn_len_app.
  - eauto.
Qed.

(** The line of the token [t] read last is the line of the byte that follows it. *)
Definition prevOk (s : bytes) (k : nat) (t : tokInfo) : Prop := pLine (tPos t) = 1 + newlines (firstn k s).

Lemma prevOk_next : forall s k g text rest tk lit, skipn k s = g ++ text ++ rest -> ~ In 10 text ->
  prevOk s (k + length g + length text) (mkTok tk (posAt s (k + length g)) lit).
Proof.
  intros s k g text rest tk lit E N. unfold prevOk, posAt. cbn [tPos pLine]. pose proof (firstn_more s k g (text ++ rest) E) as E1.
  pose proof (skipn_more s k g (text ++ rest) E) as E2. rewrite (firstn_more s (k + length g) text rest E2), newlines_app.
  apply newlines_in in N. lia.
Qed.

Lemma line_iff : forall s k t g text rest tk lit, skipn k s = g ++ text ++ rest -> prevOk s k t ->
  (pLine (tPos t) = pLine (tPos (mkTok tk (posAt s (k + length g)) lit)) <-> ~ In 10 g).
Proof.
  intros s k t g text rest tk lit E P. unfold prevOk in P. rewrite P. unfold posAt. cbn [tPos pLine]. rewrite (firstn_more s k g (text ++ rest) E), newlines_app.
  rewrite <- newlines_in. lia.
Qed.

Lemma blank_end_scan : forall X s l k g, St s l k -> skipn k s = g -> allBlank g ->
  exists l1, scan X l = Ok (mkTok EOF (posAt s (k + length g)) [], l1) /\ St s l1 (k + length g) /\ errors l1 = errors l /\ skipn (k + length g) s = [].
Proof.
  intros X s l k g HS E B. assert (E0 : skipn k s = g ++ [] ++ []) by (now rewrite !app_nil_r).
  destruct (scan_full_err X s l k HS) as [[_ N]|(g1 & tk & text & lit & rest & l1 & N1 & N2 & N3 & E1 & S1 & _ & ER & U)].
  - exfalso. apply (N g EOF [] [] [] E0 B). constructor.
  - destruct (U g EOF [] [] [] E0 B) as (<- & <- & <- & <- & <-); [constructor|]. exists l1. cbn [length] in S1. rewrite Nat.add_0_r in S1. split; auto. split; auto. split.
    + destruct ER as [[_ ER]|[(a & _ & ER & _) _]]; [auto|discriminate].
    + rewrite <- (skipn_more s k g [] ltac:(now rewrite app_nil_r)). reflexivity.
Qed.

Lemma reflow_scans : forall X n s s' l l' k k' first t t', St s l k -> St s' l' k' -> Reflow X first (skipn k s) (skipn k' s') ->
  (first = false -> sameTok t t' /\ prevOk s k t /\ prevOk s' k' t') -> (errors l = [] <-> errors l' = []) ->
  relRes (fun a b => Alike (if first then fst a else t :: fst a) (if first then fst b else t' :: fst b) /\ (errors (snd a) = [] <-> errors (snd b) = []))
    (scans X n l) (scans X n l').
Proof.
  intros X. induction n as [|n IH]; intros s s' l l' k k' first t t' HS HS' HR HF HE.
  - cbn [scans relRes fst snd]. split; auto. destruct first; [constructor|]. destruct HF as (H1 & _); auto. now constructor.
  - assert (STEP : forall g tk text lit rest l1 g' rest' l1', skipn k s = g ++ text ++ rest -> skipn k' s' = g' ++ text ++ rest' -> ~ In 10 text ->
      St s l1 (k + length g + length text) -> St s' l1' (k' + length g' + length text) -> Reflow X false rest rest' ->
      (first = false -> tk = COMMENT -> (In 10 g <-> In 10 g')) -> (errors l1 = [] <-> errors l1' = []) ->
      scan X l = Ok (mkTok tk (posAt s (k + length g)) lit, l1) -> scan X l' = Ok (mkTok tk (posAt s' (k' + length g')) lit, l1') ->
      relRes (fun a b => Alike (if first then fst a else t :: fst a) (if first then fst b else t' :: fst b) /\ (errors (snd a) = [] <-> errors (snd b) = []))
        (scans X (S n) l) (scans X (S n) l')).
    { intros g tk text lit rest l1 g' rest' l1' E E' N S1 S1' R1 HC HE1 SC SC'. cbn [scans]. rewrite SC, SC'. cbn [rbind].
      assert (R2 : Reflow X false (skipn (k + length g + length text) s) (skipn (k' + length g' + length text) s')).
      { rewrite (skipn_more _ _ text rest (skipn_more _ _ g _ E)), (skipn_more _ _ text rest' (skipn_more _ _ g' _ E')). exact R1. }
      specialize (IH _ _ _ _ _ _ false (mkTok tk (posAt s (k + length g)) lit) (mkTok tk (posAt s' (k' + length g')) lit) S1 S1' R2).
      assert (H := IH ltac:(intros _; split; [split; reflexivity|]; split; eapply prevOk_next; eauto) HE1). clear IH.
      destruct (scans X n l1) as [[us m]| | |], (scans X n l1') as [[us' m']| | |]; cbn [rbind relRes fst snd] in *; auto.
      destruct H as [HA HX]. split; auto. destruct first; auto. destruct (HF eq_refl) as (F1 & F2 & F3). constructor; auto.
      intros TK. cbn [tTok] in TK. rewrite (line_iff s k t g text rest tk lit E F2), (line_iff s' k' t' g' text rest' tk lit E' F3).
      specialize (HC eq_refl TK). tauto. }
    inversion HR as [first0 g g' B B' E0 E1 E2|first0 u u' N N' E0 E1 E2|first0 g g' tk text lit rest rest' B B' NE LX LX' HC HR1 E0 E1 E2]; subst first0.
    + subst g g'. set (g := skipn k s) in *. set (g' := skipn k' s') in *.
      destruct (blank_end_scan X s l k g HS eq_refl B) as (l1 & SC & S1 & EE & K). destruct (blank_end_scan X s' l' k' g' HS' eq_refl B') as (l1' & SC' & S1' & EE' & K').
      apply (STEP g EOF [] [] [] l1 g' [] l1'); auto; try (now rewrite !app_nil_r); try (cbn [length]; now rewrite Nat.add_0_r); try discriminate.
      * constructor; constructor.
      * rewrite EE, EE'. exact HE.
    + destruct (scan_full_err X s l k HS) as [[SC _]|(g & tk & text & lit & rest & l1 & N1 & N2 & N3 & _)]; [|exfalso; exact (N _ _ _ _ _ N1 N2 N3)].
      destruct (scan_full_err X s' l' k' HS') as [[SC' _]|(g & tk & text & lit & rest & l1 & N1 & N2 & N3 & _)]; [|exfalso; exact (N' _ _ _ _ _ N1 N2 N3)].
      cbn [scans]. rewrite SC, SC'. exact I.
    + symmetry in E1, E2.
      destruct (scan_full_err X s l k HS) as [[_ N]|(g1 & tk1 & text1 & lit1 & rest1 & l1 & N1 & N2 & N3 & SC & S1 & N4 & ER & U)]; [exfalso; exact (N _ _ _ _ _ E1 B LX)|].
      destruct (U _ _ _ _ _ E1 B LX) as (<- & <- & <- & <- & <-).
      destruct (scan_full_err X s' l' k' HS') as [[_ N']|(g1 & tk1 & text1 & lit1 & rest1 & l1' & N1' & N2' & N3' & SC' & S1' & _ & ER' & U')]; [exfalso; exact (N' _ _ _ _ _ E2 B' LX')|].
      destruct (U' _ _ _ _ _ E2 B' LX') as (<- & <- & <- & <- & <-).
      apply (STEP g tk text lit rest l1 g' rest' l1'); auto.
      pose proof (open_same X _ _ _ _ _ LX LX') as O1. pose proof (open_same X _ _ _ _ _ LX' LX) as O2.
      destruct ER as [[R1 ->]|[R1 R2]], ER' as [[R1' ->]|[R1' R2']]; auto; tauto.
Qed.

Lemma scans_end : forall X n s l k, St s l k -> scans X n l <> Hang /\ scans X n l <> NoFuel.
Proof.
  intros X. induction n as [|n IH]; intros s l k HS; [split; discriminate|]. cbn [scans].
  destruct (scan_full_err X s l k HS) as [[-> _]|(g & tk & text & lit & rest & l1 & _ & _ & _ & -> & S1 & _)]; cbn [rbind]; [split; discriminate|].
  destruct (IH _ _ _ S1). destruct (scans X n l1) as [[? ?]| | |]; cbn [rbind]; split; congruence.
Qed.

Lemma layout_like : forall X s s' e e', decodable s -> decodable s' -> Reflow X true s s' -> map bareDef e = map bareDef e' ->
  relRes likeOut (parseSource X (parseFuel s) s e) (parseSource X (parseFuel s') s' e').
Proof.
  intros X s s' e e' D D' HR HD.
  assert (H : forall n, relRes (fun a b => Alike (fst a) (fst b) /\ (errors (snd a) = [] <-> errors (snd b) = [])) (scans X n (newLexer s)) (scans X n (newLexer s'))).
  { intros n. apply (reflow_scans X n s s' (newLexer s) (newLexer s') 0 0 true zeroTok zeroTok); auto using newLexer_st; [discriminate|].
    destruct (newLexer_at s D) as (_ & -> & _), (newLexer_at s' D') as (_ & -> & _). tauto. }
  apply tokens_like; auto.
  - intros n. specialize (H n). destruct (scans X n (newLexer s)) as [[? ?]| | |] eqn:E, (scans X n (newLexer s')) as [[? ?]| | |]; cbn [relRes] in H; try contradiction; auto; try tauto.
    + apply (proj1 (scans_end X n s _ _ (newLexer_st s D)) E).
    + apply (proj2 (scans_end X n s _ _ (newLexer_st s D)) E).
  - intros t l t' l' E E'. specialize (H 2%nat). rewrite E, E' in H. apply H.
Qed.

(** C84. Two sources made of the same lexemes have the same outcome. *)
Theorem C84_layout : forall X s s' e e', decodable s -> decodable s' -> Reflow X true s s' -> map bareDef e = map bareDef e' ->
  sameOutcome (parseSource X (parseFuel s) s e) (parseSource X (parseFuel s') s' e').
Proof. intros X s s' e e' D D' HR HD. apply like_outcome; auto. now apply layout_like. Qed.

(** ** Changing one gap *)

(** Lexemes up to [tail], the last of them [text] of kind [tk]. *)
Inductive Cut (X : Ext) : bytes -> bytes -> token -> bytes -> Prop :=
| cut_last g tk text lit tail : allBlank g -> text <> [] -> Lexed X tk text lit tail -> Cut X (g ++ text) tail tk text
| cut_more g tk text lit a tail tk' text' : allBlank g -> text <> [] -> Lexed X tk text lit (a ++ tail) ->
    Cut X a tail tk' text' -> Cut X (g ++ text ++ a) tail tk' text'.

(** What follows is blank. *)
Definition apart (rest : bytes) : Prop := rest = [] \/ blank (hd 0 rest).

Lemma good_pre : forall u rest, Good (u ++ rest) -> apart rest -> Good u /\ Good rest.
Proof.
  intros u. remember (length u) as n eqn:En. revert u En. induction n as [n IH] using lt_wf_ind. intros u En rest G A.
  destruct u as [|c u]; [split; auto; apply good_nil|].
  destruct (good_rune _ G) as (r & cs & t & R); [discriminate|]. pose proof (ru_split _ _ _ _ R) as E. pose proof (ru_len _ _ _ _ R) as L.
  destruct (le_lt_dec (length cs) (length (c :: u))) as [LE|LT].
  - assert (EE : exists v, c :: u = cs ++ v /\ t = v ++ rest).
    { exists (skipn (length cs) (c :: u)). pose proof E as E0. apply (f_equal (firstn (length cs))) in E. rewrite firstn_len_app, firstn_app in E.
      replace (length cs - length (c :: u))%nat with 0%nat in E by lia. cbn [firstn] in E. rewrite app_nil_r in E.
      assert (B : c :: u = cs ++ skipn (length cs) (c :: u)) by (rewrite <- E at 1; now rewrite firstn_skipn).
      split; auto. rewrite B in E0. rewrite <- app_assoc in E0. now apply app_inv_head in E0. }
    destruct EE as (v & E1 & ->). assert (LV : (length v < n)%nat) by (rewrite En, E1, app_length; lia). destruct (IH (length v) LV v eq_refl rest (ru_good _ _ _ _ R) A) as [G1 G2].
    split; auto. rewrite E1 in *. destruct G as [G _]. split.
    + apply Forall_app in G as [G _]. exact G.
    + apply (Dec_rune _ r (Z.of_nat (length cs))).
      * destruct cs; [simpl in L; lia|discriminate].
      * apply (ru_dec _ _ _ _ R).
      * apply (ru_ok _ _ _ _ R).
      * rewrite Nat2Z.id, skipn_len_app. apply G1.
  - exfalso. assert (EE : exists b v, cs = (c :: u) ++ b :: v /\ rest = (b :: v) ++ t).
    { exists (hd 0 (skipn (length (c :: u)) cs)), (tl (skipn (length (c :: u)) cs)).
      assert (K : skipn (length (c :: u)) cs <> []) by (intros K; apply (f_equal (@length Z)) in K; rewrite skipn_length in K; cbn [length] in K, LT; lia).
      assert (K2 : hd 0 (skipn (length (c :: u)) cs) :: tl (skipn (length (c :: u)) cs) = skipn (length (c :: u)) cs) by (destruct (skipn (length (c :: u)) cs); [congruence|reflexivity]).
      rewrite K2. pose proof E as E0. apply (f_equal (firstn (length (c :: u)))) in E. rewrite firstn_len_app, firstn_app in E.
      replace (length (c :: u) - length cs)%nat with 0%nat in E by lia. cbn [firstn] in E. rewrite app_nil_r in E.
      assert (B : cs = (c :: u) ++ skipn (length (c :: u)) cs) by (rewrite E at 1; now rewrite firstn_skipn).
      split; auto. rewrite B in E0. rewrite <- app_assoc in E0. now apply app_inv_head in E0. }
    destruct EE as (b & v & E1 & ->). destruct A as [A|A]; [discriminate|]. cbn [app hd] in A.
    destruct (ru_case _ _ _ _ R) as [[_ K]|[_ K]]; rewrite E1 in K.
    + destruct u; discriminate K.
    + rewrite Forall_forall in K. assert (128 <= b) by (apply K, in_or_app; right; now left). unfold blank in A. lia.
Qed.

Lemma stops_apart : forall P u rest rest', (forall c, blank c -> ~ P c) -> apart rest' -> stops P (u ++ rest) -> stops P (u ++ rest').
Proof.
  intros P u rest rest' HB A H. destruct u as [|c u].
  - destruct A as [->|A]; [now left|right; auto].
  - destruct H as [H|H]; [discriminate|right; exact H].
Qed.

Lemma starts_apart : forall u rest rest' r, Good (u ++ rest) -> apart rest -> apart rest' -> startsWith (u ++ rest') r -> startsWith (u ++ rest) r \/ blank r.
Proof.
  intros u rest rest' r G A A' [N (w & E)]. destruct u as [|c u].
  - right. destruct A' as [->|A']; [now destruct N|]. destruct rest' as [|b rest']; [now destruct N|]. cbn [app hd] in *.
    rewrite decode_ascii in E by (unfold blank in A'; lia). congruence.
  - left. destruct (good_pre _ _ G A) as [G1 _]. destruct (good_rune _ G1) as (r1 & cs & t & R); [discriminate|].
    rewrite (ru_split _ _ _ _ R), <- app_assoc, (ru_dec _ _ _ _ R) in E. split; [discriminate|].
    exists (Z.of_nat (length cs)). rewrite (ru_split _ _ _ _ R), <- app_assoc, (ru_dec _ _ _ _ R). congruence.
Qed.

Lemma digit_apart : forall X r, blank r -> uniIsDigit X r = false.
Proof. intros X r [->|[->|[->| ->]]]; reflexivity. Qed.
Lemma letter_apart : forall X r, blank r -> uniIsLetter X r = false.
Proof. intros X r [->|[->|[->| ->]]]; reflexivity. Qed.

Lemma goesOn_apart : forall X u rest rest', Good (u ++ rest) -> apart rest -> apart rest' -> goesOn X (u ++ rest') -> goesOn X (u ++ rest).
Proof.
  intros X u rest rest' G A A' [(r & H1 & H2)|(d & t & H1 & H2)].
  - destruct (starts_apart u rest rest' r G A A' H1) as [K|K]; [left; eauto|]. rewrite (digit_apart X r K) in H2. discriminate.
  - assert (B : ~ blank 46) by (unfold blank; lia). assert (B' : ~ blank d) by (unfold blank, digit in *; lia).
    destruct u as [|c [|c1 u]]; cbn [app] in H1.
    + destruct A' as [->|A']; [discriminate|]. subst rest'. now destruct B.
    + injection H1 as -> ->. destruct A' as [A'|A']; [discriminate|now destruct B'].
    + injection H1 as -> -> _. right. exists d, (u ++ rest). auto.
Qed.

Lemma num_apart : forall X t r0, Num X t r0 -> forall u rest rest', r0 = u ++ rest -> Good (t ++ u ++ rest) -> apart rest -> apart rest' -> Num X t (u ++ rest').
Proof.
  intros X t r0 H. induction H as [r0 HS|r cs t r0 HN HD HU H IH|t r0 d v HE HD H IH]; intros u rest rest' -> G A A'.
  - constructor. intros K. apply HS. eapply goesOn_apart; eauto.
  - rewrite <- app_assoc in G. pose proof (rune_front _ _ _ G HN HD) as R. apply Nm_digit with (r := r); auto.
    + apply (ru_dec _ _ _ _ R).
    + apply (IH u rest rest'); auto. apply (ru_good _ _ _ _ R).
  - assert (G1 : Good (t ++ u ++ rest)) by (apply (good_tail 46); [exact G|lia]). specialize (IH u rest rest' eq_refl G1 A A').
    destruct t as [|c t]; [|cbn [app] in HE; injection HE as -> _; eapply Nm_dot; [reflexivity|eassumption|assumption]].
    cbn [app] in HE. destruct u as [|c u].
    + cbn [app] in HE. subst rest. destruct A as [A|A]; [discriminate|]. cbn [hd] in A. unfold blank, digit in *. lia.
    + cbn [app] in HE. injection HE as -> _. eapply Nm_dot; [reflexivity|eassumption|assumption].
Qed.

Lemma dotted_apart : forall text u rest rest', apart rest -> apart rest' -> dotted text (u ++ rest') -> dotted text (u ++ rest).
Proof.
  intros text u rest rest' A A' (a & b & t & N & E & E1 & H). rewrite app_assoc in E1.
  assert (K : exists t', (b ++ u) ++ rest = 46 :: t' /\ hd 0 t' <> 46).
  { destruct (b ++ u) as [|c v]; cbn [app] in *.
    - subst rest'. destruct A' as [A'|A']; [discriminate|]. cbn [hd] in A'. unfold blank in A'. lia.
    - injection E1 as -> E1. exists (v ++ rest). split; auto. destruct v as [|c v]; cbn [app] in *.
      + destruct A as [->|A]; cbn [hd]; [lia|]. unfold blank in A. lia.
      + subst t. exact H. }
  destruct K as (t' & K1 & K2). exists a, b, t'. rewrite app_assoc. auto.
Qed.

Lemma base_apart : forall w u rest rest' , apart rest' -> (forall P, ~ Base (hd 0 (w ++ u ++ rest)) P) -> forall P, ~ Base (hd 0 (w ++ u ++ rest')) P.
Proof.
  intros w u rest rest' A' H P HB. rewrite app_assoc in H, HB. destruct (w ++ u) as [|c v]; [|exact (H P HB)].
  cbn [app] in HB. destruct A' as [->|A']; [inversion HB|]. unfold blank in A'. inversion HB; lia.
Qed.

Lemma punct_noblank : forall w tk, In (w, tk) punctTable -> Forall (fun c => ~ blank c) w.
Proof.
  intros w tk H. unfold punctTable in H. cbn [In] in H.
  repeat (destruct H as [H|H]; [injection H as <- <-; repeat (apply Forall_cons; [unfold blank; lia|]); apply Forall_nil|]). contradiction.
Qed.

Lemma longest_apart : forall w u rest rest', apart rest' -> longest w (u ++ rest) -> longest w (u ++ rest').
Proof.
  intros w u rest rest' A' H w' tk v HI E. rewrite app_assoc in E.
  destruct (le_lt_dec (length w') (length (w ++ u))) as [LE|LT].
  - assert (K : w ++ u = w' ++ skipn (length w') (w ++ u)).
    { apply (f_equal (firstn (length w'))) in E. rewrite firstn_len_app, firstn_app in E.
      replace (length w' - length (w ++ u))%nat with 0%nat in E by lia. cbn [firstn] in E. rewrite app_nil_r in E. rewrite <- E at 1. now rewrite firstn_skipn. }
    apply (H w' tk (skipn (length w') (w ++ u) ++ rest) HI). now rewrite !app_assoc, <- K.
  - exfalso. destruct A' as [->|A'].
    + apply (f_equal (@length Z)) in E. rewrite !app_length in E. cbn [length] in E. rewrite app_length in LT. lia.
    + pose proof (punct_noblank _ _ HI) as F. destruct rest' as [|b rest']; [apply (f_equal (@length Z)) in E; rewrite !app_length in E; cbn [length] in E; rewrite app_length in LT; lia|].
      cbn [hd] in A'. rewrite Forall_forall in F. apply (F b); auto.
      apply (f_equal (firstn (length w'))) in E. rewrite firstn_len_app, firstn_app in E. rewrite <- E. apply in_or_app. right.
      destruct (length w' - length (w ++ u))%nat eqn:EN; [lia|]. now left.
Qed.

Lemma lexed_apart : forall X tk text lit u rest rest', Lexed X tk text lit (u ++ rest) -> Good (text ++ u ++ rest) -> text <> [] -> apart rest -> apart rest' ->
  (u = [] -> tk = COMMENT \/ openText text rest -> rest' = [] \/ hd 0 rest' = 10) -> Lexed X tk text lit (u ++ rest').
Proof.
  intros X tk text lit u rest rest' H G NE A A' HC. inversion H; subst.
  - congruence.
  - apply Lx_word; auto. eapply stops_apart; [|eassumption|eassumption]. intros x Hx K. unfold identChar, identStart, blank in *. lia.
  - eapply Lx_base; eauto. eapply stops_apart; [|eassumption|eassumption]. intros x Hx K. match goal with HB : Base _ _ |- _ => inversion HB; subst end; unfold hexDigit, octDigit, binDigit, digit, blank in *; lia.
  - apply Lx_int; auto.
    + eapply num_apart; eauto.
    + intros E. eapply base_apart; eauto.
    + intros K. apply H3. eapply dotted_apart; eauto.
  - apply Lx_float; auto.
    + eapply num_apart; eauto.
    + intros E. eapply base_apart; eauto.
    + eapply dotted_apart; [| |eassumption]; assumption.
  - apply Lx_punct; auto.
    + eapply longest_apart; eauto.
    + intros E r K. subst lit. apply (good_tail 46) in G; [|lia]. destruct (starts_apart u rest rest' r G A A' K) as [K1|K1]; [auto|now apply letter_apart].
  - assert (G1 : Good (w ++ u ++ rest)) by (apply (good_tail 46); [exact G|lia]).
    assert (NB : ~ (w = [] /\ u = [])).
    { intros [-> ->]. cbn [app] in *. destruct A as [->|A]; [now destruct H0|]. destruct H0 as [N0 (w0 & E0)]. destruct rest as [|b rest]; [congruence|].
      cbn [hd] in A. rewrite decode_ascii in E0 by (unfold blank in A; lia). injection E0 as -> _. rewrite (letter_apart X r A) in H1. discriminate. }
    eapply Lx_dotted; eauto.
    + rewrite app_assoc in *. destruct (good_pre _ _ G1 A) as [G2 _]. destruct (good_rune _ G2) as (r1 & cs & t & R).
      { intros K. apply NB. now apply app_eq_nil. }
      destruct H0 as [N0 (w0 & E0)]. rewrite (ru_split _ _ _ _ R), <- app_assoc, (ru_dec _ _ _ _ R) in E0. injection E0 as -> _. split.
      * intros K. apply app_eq_nil in K as [K _]. rewrite K in G2. apply NB. now apply app_eq_nil.
      * exists (Z.of_nat (length cs)). rewrite (ru_split _ _ _ _ R), <- app_assoc. apply (ru_dec _ _ _ _ R).
    + eapply stops_apart; [|eassumption|eassumption]. intros x Hx K. unfold letter, blank in *. lia.
  - apply Lx_comment; auto. destruct u as [|c u]; [apply HC; auto|]. cbn [app hd] in *. destruct H1 as [H1|H1]; [discriminate|now right].
  - apply Lx_text; auto.
  - apply Lx_open; auto. destruct u as [|c u]; [apply HC; auto|].
    + right. exists (lit ++ [b]). split; [now destruct lit|]. auto.
    + cbn [app hd] in *. destruct H2 as [H2|H2]; [discriminate|now right].
  - eapply Lx_illegal; eauto. pose proof (rune_front _ _ _ G NE H1) as R. apply (ru_dec _ _ _ _ R).
Qed.

Lemma good_drop : forall g x, allBlank g -> Good (g ++ x) -> Good x.
Proof. induction g as [|c g IH]; intros x B G; [exact G|]. inversion B; subst. apply IH; auto. apply (good_tail c); [exact G|unfold blank in *; lia]. Qed.

Lemma lexed_good : forall X tk text lit rest, Lexed X tk text lit rest -> Good (text ++ rest) -> Good rest.
Proof.
  intros X tk text lit rest H G. destruct (scan_full_err X (text ++ rest) _ 0 (newLexer_st _ G)) as [[_ N]|(g & tk1 & text1 & lit1 & rest1 & l1 & _ & _ & _ & _ & S1 & _ & _ & U)].
  - exfalso. apply (N [] tk text lit rest); auto. constructor.
  - destruct (U [] tk text lit rest) as (<- & <- & <- & <- & <-); auto; [constructor|]. apply st_good in S1. cbn [length Nat.add] in S1. now rewrite skipn_len_app in S1.
Qed.

Lemma lexed_nil : forall X tk lit rest, Lexed X tk [] lit rest -> rest = [].
Proof. intros X tk lit rest H. inversion H; subst; auto; try discriminate. match goal with K : In _ punctTable |- _ => cbn in K; repeat (destruct K as [K|K]; [discriminate K|]); contradiction end. Qed.

Lemma reflow_refl : forall X s first, Good s -> Reflow X first s s.
Proof.
  intros X s. remember (length s) as n eqn:En. revert s En. induction n as [n IH] using lt_wf_ind. intros s En first G.
  destruct (scan_full_err X s _ 0 (newLexer_st _ G)) as [[_ N]|(g & tk & text & lit & rest & l1 & E & B & LX & _ & _ & _ & _ & _)].
  - now apply rf_none.
  - cbn [skipn] in E. destruct text as [|c text].
    + rewrite (lexed_nil _ _ _ _ LX) in E. cbn [app] in E. rewrite app_nil_r in E. subst s. now apply rf_end.
    + subst s. apply rf_lexeme with (tk := tk) (lit := lit); auto; [discriminate|tauto|].
      apply (IH (length rest)); auto; [rewrite En, !app_length; cbn [length]; lia|]. apply (lexed_good X tk (c :: text) lit); auto. now apply (good_drop g).
Qed.

Lemma cut_ne : forall X a tail tk text, Cut X a tail tk text -> a <> [].
Proof. intros X a tail tk text H. destruct H; intros K; apply app_eq_nil in K as [_ K]; [auto|apply app_eq_nil in K as [K _]; auto]. Qed.

Lemma cut_reflow : forall X a tail tk text, Cut X a tail tk text -> forall tail', Good (a ++ tail) -> apart tail -> apart tail' ->
  (tk = COMMENT \/ openText text tail -> tail' = [] \/ hd 0 tail' = 10) -> Reflow X false tail tail' -> forall first, Reflow X first (a ++ tail) (a ++ tail').
Proof.
  intros X a tail tk text H. induction H as [g tk text lit tail B NE LX|g tk text lit a tail tk' text' B NE LX HC IH]; intros tail' G A A' HX HR first; rewrite <- !app_assoc in *.
  - apply rf_lexeme with (tk := tk) (lit := lit); auto; [|tauto]. apply (lexed_apart X tk text lit [] tail tail'); auto. cbn [app]. now apply (good_drop g).
  - pose proof (good_drop _ _ B G) as G1. apply rf_lexeme with (tk := tk) (lit := lit); auto.
    + apply (lexed_apart X tk text lit a tail tail'); auto. intros K. now apply cut_ne in HC.
    + tauto.
    + apply IH; auto. now apply (lexed_good X tk text lit).
Qed.

Lemma kind_comment : forall w, ~ kindOf w COMMENT.
Proof.
  intros w [H|[H _]]; [|discriminate]. assert (K : forallb (fun x => negb (teq (snd x) COMMENT)) keywordTable = true) by reflexivity.
  rewrite forallb_forall in K. apply K in H. discriminate H.
Qed.

(** C84. The blanks between two lexemes can be replaced by any others, if the second is not
    a comment that would change its relation to the line of the first, and if the first, when it
    is a comment or an unfinished text literal, is still ended by a newline. *)
Theorem C84_gap : forall X a g g' b tk text e, decodable (a ++ g ++ b) -> Cut X a (g ++ b) tk text ->
  allBlank g -> allBlank g' -> g <> [] -> g' <> [] -> ~ blank (hd 0 b) ->
  (hd 0 b = 59 -> (In 10 g <-> In 10 g')) ->
  (tk = COMMENT \/ openText text (g ++ b) -> hd 0 g' = 10) ->
  sameOutcome (parseSource X (parseFuel (a ++ g ++ b)) (a ++ g ++ b) e) (parseSource X (parseFuel (a ++ g' ++ b)) (a ++ g' ++ b) e).
Proof.
  intros X a g g' b tk text e D HC B B' N N' NB H59 HX.
  assert (A : apart (g ++ b)) by (right; destruct g; [congruence|]; now inversion B). assert (A' : apart (g' ++ b)) by (right; destruct g'; [congruence|]; now inversion B').
  destruct (good_pre _ _ D A) as [Ga Gt]. pose proof (good_drop _ _ B Gt) as Gb.
  apply C84_layout; auto.
  - apply good_app; auto. apply good_app; auto. now apply good_blank.
  - apply cut_reflow with (tk := tk) (text := text); auto.
    + intros K. right. specialize (HX K). destruct g'; [congruence|exact HX].
    + destruct (scan_full_err X b _ 0 (newLexer_st _ Gb)) as [[_ NT]|(g0 & tk1 & text1 & lit1 & rest1 & l1 & E & B0 & LX & _ & _ & _ & _ & _)].
      * cbn [skipn] in NT. assert (Q : forall h, allBlank h -> noToken X (h ++ b)).
        { intros h Hh g1 tk1 text1 lit1 rest1 E1 B1 LX. pose proof (lexed_nonblank _ _ _ _ _ LX) as NB1.
          assert (NBb : b = [] \/ ~ blank (hd 0 b)) by auto. destruct (blank_split h b Hh NBb) as [_ K1]. destruct (blank_split g1 (text1 ++ rest1) B1 NB1) as [_ K2].
          rewrite E1, K2 in K1. apply (NT [] tk1 text1 lit1 rest1); auto. constructor. }
        apply rf_none; auto.
      * cbn [skipn] in E. assert (g0 = []) by (destruct g0 as [|c g0]; auto; exfalso; apply NB; rewrite E; inversion B0; auto). subst g0. cbn [app] in E.
        destruct text1 as [|c text1].
        -- rewrite (lexed_nil _ _ _ _ LX) in E. subst b. cbn [app]. rewrite !app_nil_r. now apply rf_end.
        -- rewrite E. apply rf_lexeme with (tk := tk1) (lit := lit1); auto; [discriminate| |].
           ++ intros _ ->. apply H59. rewrite E. cbn [app hd]. inversion LX; subst; auto.
              ** exfalso. eapply kind_comment; eauto.
              ** match goal with K : In _ punctTable |- _ => cbn in K; repeat (destruct K as [K|K]; [discriminate K|]); contradiction end.
              ** exfalso. eapply kind_comment; eauto.
           ++ apply reflow_refl. apply (lexed_good X tk1 (c :: text1) lit1); auto. now rewrite <- E.
Qed.

Lemma lexed_by : forall X tk text lit er rest, Good (text ++ rest) -> ~ blank (hd 0 (text ++ rest)) -> lexOne X (text ++ rest) = Some (tk, text, lit, er) -> Lexed X tk text lit rest.
Proof. intros X tk text lit er rest G NB H. destruct (lexOne_lexed X _ _ _ _ _ G (or_intror NB) H) as (r & E & K). apply app_inv_head in E. now subst r. Qed.

(** A source with an undefined name: both layouts give the same rules and the same diagnostic. *)
Example C84_ex : exists a g g' b tk text t d ds p,
  decodable (a ++ g ++ b) /\ Cut X0 a (g ++ b) tk text /\ allBlank g /\ allBlank g' /\ g <> [] /\ g' <> [] /\ ~ blank (hd 0 b) /\
  (hd 0 b = 59 -> (In 10 g <-> In 10 g')) /\ (tk = COMMENT \/ openText text (g ++ b) -> hd 0 g' = 10) /\ ~ (In 10 g <-> In 10 g') /\
  parseSource X0 (parseFuel (a ++ g ++ b)) (a ++ g ++ b) [] = Ok ((Some t, Some (d :: ds)), p) /\ exists r1 r2, t = NCDDL zeroPos [r1; r2].
Proof.
  exists (str "a=b"), [32; 10; 9], [32], (str "c = int"), IDENT, (str "b").
  do 4 eexists. split; [now apply good_by_ascii|]. split.
  { apply (cut_more X0 [] IDENT (str "a") (str "a") (str "=b")); [constructor|discriminate| |].
    - eapply lexed_by; [now apply good_by_ascii|cbn; unfold blank; lia|vm_compute; reflexivity].
    - apply (cut_more X0 [] ASSIGN (str "=") (str "=") (str "b")); [constructor|discriminate| |].
      + eapply lexed_by; [now apply good_by_ascii|cbn; unfold blank; lia|vm_compute; reflexivity].
      + apply (cut_last X0 [] IDENT (str "b") (str "b")); [constructor|discriminate|].
        eapply lexed_by; [now apply good_by_ascii|cbn; unfold blank; lia|vm_compute; reflexivity]. }
  split; [repeat (apply Forall_cons; [unfold blank; lia|]); apply Forall_nil|]. split; [repeat (apply Forall_cons; [unfold blank; lia|]); apply Forall_nil|].
  split; [discriminate|]. split; [discriminate|]. split; [cbn; unfold blank; lia|]. split; [cbn; lia|]. split; [intros [K|(a & _ & K & _)]; discriminate|].
  split; [cbn; lia|]. split; [vm_compute; reflexivity|]. do 2 eexists. reflexivity.
Qed.

(** The condition on comments is needed: a comment moved to a line of its own is no longer
    part of the rule it follows. *)
Theorem C84_comment_refuted : exists a g g' b tk text, decodable (a ++ g ++ b) /\ Cut X0 a (g ++ b) tk text /\ allBlank g /\ allBlank g' /\ g <> [] /\ g' <> [] /\
  ~ blank (hd 0 b) /\ (tk = COMMENT \/ openText text (g ++ b) -> hd 0 g' = 10) /\
  ~ sameOutcome (parseSource X0 (parseFuel (a ++ g ++ b)) (a ++ g ++ b) []) (parseSource X0 (parseFuel (a ++ g' ++ b)) (a ++ g' ++ b) []).
Proof.
  exists (str "a=1"), [32], [10], (str ";x"), INT, (str "1").
  split; [now apply good_by_ascii|]. split.
  { apply (cut_more X0 [] IDENT (str "a") (str "a") (str "=1")); [constructor|discriminate| |].
    - eapply lexed_by; [now apply good_by_ascii|cbn; unfold blank; lia|vm_compute; reflexivity].
    - apply (cut_more X0 [] ASSIGN (str "=") (str "=") (str "1")); [constructor|discriminate| |].
      + eapply lexed_by; [now apply good_by_ascii|cbn; unfold blank; lia|vm_compute; reflexivity].
      + apply (cut_last X0 [] INT (str "1") (str "1")); [constructor|discriminate|].
        eapply lexed_by; [now apply good_by_ascii|cbn; unfold blank; lia|vm_compute; reflexivity]. }
  split; [repeat (apply Forall_cons; [unfold blank; lia|]); apply Forall_nil|]. split; [repeat (apply Forall_cons; [unfold blank; lia|]); apply Forall_nil|].
  split; [discriminate|]. split; [discriminate|]. split; [cbn; unfold blank; lia|]. split; [intros [K|(a & _ & K & _)]; discriminate|].
  intros H. vm_compute in H. destruct H as [H _]. discriminate H.
Qed.
