(** Property C112: a stray character at the start of a source, such as a byte order mark. It
    costs one diagnostic, and what is behind it is parsed as it is without it. *)
From Coq Require Import String.
From Verif Require Import Base Utf8 Token Strconv Ext Lexer LexSpec LexSpec2 LexSpec3 LexerProofs LexOne LexSeq LexWords Ast Env Diag Parser Doc ParseSource ParseTop ParseTwin ParseFuel ParseLayout ParseMap Codegen Cli
  JsonSpec Utf8Proofs Props_Lexer Props_LexFull Props_Parser Props_Codegen Props_Cli Props_Layout Props_Append.
From Verif Require Props_Crlf.
Open Scope string_scope.
Open Scope list_scope.
Open Scope Z_scope.

(** ** Specification *)

(** One character that begins no token and is no blank. *)
Definition stray (g : bytes) : Prop :=
  decodable g /\ ~ In 10 g /\ exists c t r, g = c :: t /\ decodeRune g = (r, Z.of_nat (length g)) /\
    ~ identStart c /\ ~ digit c /\ ~ blank c /\ c <> 34 /\ c <> 59 /\ forall w tk, ~ In (c :: w, tk) punctTable.

(** U+FEFF, with which some editors begin a file. *)
Definition byteOrderMark : bytes := [239; 187; 191].

(** [m] bytes further; [m] columns further on the first line. Positions with no line are the
    ones that were never set. *)
Definition right (m : Z) (p : position) : position :=
  mkPos (pFile p) (if pLine p <=? 0 then pOffset p else pOffset p + m) (pLine p) (if pLine p =? 1 then pColumn p + m else pColumn p).

Definition same (w : bytes) : bytes := w.

(** "expected IDENT at 1:1". *)
Definition atStart : diag := mkDiag (mkPos [] 0 1 1) (mkPos [] 0 1 1) (MExpectedAt IDENT 1 1).

(** The second outcome is the first one, moved, with that diagnostic before the others.
    Nothing is said of sources that are not parsed because of an early lexer error (C57). *)
Definition strayed (m : Z) (x y : res (fileResult * parser)) : Prop :=
  match x with
  | Ok ((Some t, ds), p) => exists p', y = Ok ((Some (moveFile (right m) same t), Some (atStart :: map (mvD (right m) same) (listed ds))), p') /\ env p' = map (mvDef (right m) same) (env p)
  | Ok ((None, _), _) => True
  | Panic => y = Panic \/ exists p', y = Ok ((None, None), p')
  | _ => False
  end.

(** ** Positions and tokens *)

Lemma right_line : forall m p, pLine (right m p) = pLine p.
Proof. reflexivity. Qed.

Lemma right_col : forall m p, pColumn (right m p) = pColumn (right m (mkPos [] 0 (pLine p) (pColumn p))).
Proof. reflexivity. Qed.

Lemma right_to : forall m p k, posTo (right m p) k = right m (posTo p k).
Proof.
  intros m p k. unfold posTo, right. cbn [pFile pOffset pLine pColumn]. f_equal; [destruct (pLine p <=? 0); lia|destruct (pLine p =? 1); lia].
Qed.

Lemma since_plain : forall g n, ~ In 10 g -> sinceNewline g n = n + Z.of_nat (length g).
Proof.
  induction g as [|c g IH]; intros n N; cbn [sinceNewline length]; [lia|]. destruct (Z.eqb_spec c 10) as [->|_]; [destruct N; now left|].
  rewrite IH; [lia|]. intros K. apply N. now right.
Qed.

Lemma since_app : forall u v n, sinceNewline (u ++ v) n = sinceNewline v (sinceNewline u n).
Proof. induction u as [|c u IH]; intros v n; cbn [app sinceNewline]; auto. Qed.

Lemma since_more : forall s n m, sinceNewline s (n + m) = if newlines s =? 0 then sinceNewline s n + m else sinceNewline s n.
Proof.
  induction s as [|c s IH]; intros n m; [reflexivity|]. cbn [sinceNewline newlines]. destruct (c =? 10).
  - pose proof (newlines_pos s). destruct (Z.eqb_spec (1 + newlines s) 0); [lia|]. reflexivity.
  - replace (n + m + 1) with ((n + 1) + m) by lia. rewrite IH. reflexivity.
Qed.

Lemma plain_lines : forall g, ~ In 10 g -> newlines g = 0.
Proof.
  induction g as [|c g IH]; intros N; [reflexivity|]. cbn [newlines]. destruct (Z.eqb_spec c 10) as [->|_]; [destruct N; now left|].
  apply IH. intros K. apply N. now right.
Qed.

Lemma posAt_right : forall g s m, ~ In 10 g -> posAt (g ++ s) (length g + m) = right (Z.of_nat (length g)) (posAt s m).
Proof.
  intros g s m N. unfold posAt, right. cbn [pFile pOffset pLine pColumn]. rewrite firstn_app_2, newlines_app, since_app, (plain_lines g N), (since_plain g 0 N), since_more.
  pose proof (newlines_pos (firstn m s)). destruct (Z.leb_spec (1 + newlines (firstn m s)) 0); [lia|].
  destruct (Z.eqb_spec (newlines (firstn m s)) 0), (Z.eqb_spec (1 + newlines (firstn m s)) 1); try lia; f_equal; lia.
Qed.

Section Stray.
Variable X : Ext.

Lemma stray_lexed : forall g s, stray g -> Lexed X ILLEGAL g g s.
Proof.
  intros g s (D & _ & c & t & r & E & DR & H). assert (NE : g <> []) by (subst g; discriminate).
  apply (Lx_illegal X g r s c t); auto; try apply H. rewrite <- (app_nil_r g) in D, DR at 1.
  assert (DR' : decodeRune (g ++ []) = (r, Z.of_nat (length g))) by (rewrite DR; now rewrite app_nil_r in *).
  exact (ru_dec _ _ _ _ (rune_front g [] r D NE DR') s).
Qed.

Lemma right_scans : forall g s, ~ In 10 g -> forall n l l' k, St s l k -> St (g ++ s) l' (length g + k) -> (errors l = [] <-> errors l' = []) ->
  relRes (fun x y => fst y = map (mvTok (right (Z.of_nat (length g))) same) (fst x) /\ (errors (snd x) = [] <-> errors (snd y) = [])) (scans X n l) (scans X n l').
Proof.
  intros g s B. induction n as [|n IH]; intros l l' k HS HS' HE; [split; auto|]. cbn [scans].
  assert (E : skipn (length g + k) (g ++ s) = skipn k s).
  { rewrite skipn_app, skipn_all2 by lia. cbn [app]. f_equal. lia. }
  destruct (scan_full_err X s l k HS) as [[SC N]|(g1 & tk & text & lit & rest & l1 & N1 & N2 & N3 & SC & S1 & N4 & ER & U)];
    destruct (scan_full_err X (g ++ s) l' _ HS') as [[SC' N']|(g1' & tk' & text' & lit' & rest' & l1' & N1' & N2' & N3' & SC' & S1' & N4' & ER' & U')]; rewrite SC, SC'; cbn [rbind].
  - exact I.
  - exfalso. rewrite E in N1'. exact (N _ _ _ _ _ N1' N2' N3').
  - exfalso. rewrite <- E in N1. exact (N' _ _ _ _ _ N1 N2 N3).
  - rewrite <- E in N1. destruct (U' _ _ _ _ _ N1 N2 N3) as (<- & <- & <- & <- & <-).
    replace (length g + k + length g1 + length text)%nat with (length g + (k + length g1 + length text))%nat in S1' by lia.
    replace (length g + k + length g1)%nat with (length g + (k + length g1))%nat by lia. rewrite (posAt_right g s _ B).
    assert (HE1 : errors l1 = [] <-> errors l1' = []) by (destruct ER as [[R1 ->]|[R1 R2]], ER' as [[R1' ->]|[R1' R2']]; auto; tauto).
    pose proof (IH l1 l1' _ S1 S1' HE1) as H. destruct (scans X n l1) as [[us m]| | |], (scans X n l1') as [[us' m']| | |]; cbn [rbind relRes fst snd] in *; auto.
    destruct H as [H1 H2]. split; auto. cbn [map]. rewrite H1. f_equal. unfold mvTok. cbn [tTok tPos tLit]. unfold same. now destruct (teq tk COMMENT).
Qed.

(** The lexer behind the stray character. *)
Lemma stray_first : forall g s, stray g -> decodable s -> exists L, scan X (newLexer (g ++ s)) = Ok (mkTok ILLEGAL (mkPos [] 0 1 1) g, L) /\
  forall n, relRes (fun x y => fst y = map (mvTok (right (Z.of_nat (length g))) same) (fst x) /\ (errors (snd x) = [] <-> errors (snd y) = [])) (scans X n (newLexer s)) (scans X n L).
Proof.
  intros g s HG D. assert (D' : decodable (g ++ s)) by (apply good_app; auto; apply HG). pose proof (newLexer_st _ D') as S0.
  destruct (newLexer_at s D) as (_ & E0 & _). destruct (newLexer_at (g ++ s) D') as (_ & E0' & _).
  destruct (scan_full_err X (g ++ s) _ _ S0) as [[_ N]|(g1 & tk & text & lit & rest & l1 & N1 & N2 & N3 & SC & S1 & N4 & ER & U)].
  - exfalso. exact (N [] ILLEGAL g g s eq_refl (Forall_nil _) (stray_lexed g s HG)).
  - destruct (U [] ILLEGAL g g s eq_refl (Forall_nil _) (stray_lexed g s HG)) as (<- & <- & <- & <- & <-). exists l1. split; [exact SC|].
    intros n. apply (right_scans g s ltac:(apply HG) n (newLexer s) l1 0%nat); auto using newLexer_st.
    + cbn [length Nat.add] in S1. now rewrite Nat.add_0_r.
    + rewrite E0. destruct ER as [[_ ->]|[O _]]; [rewrite E0'; tauto|]. exfalso. destruct HG as (_ & _ & c & t & r & EG & _ & _ & _ & _ & NQ & _).
      destruct O as (a & _ & O & _). rewrite EG in O. injection O as -> _. congruence.
Qed.

(** The first step of the rule loop. *)
Lemma stray_step : forall rf f L g t e, fileLoop X rf (S f) [] (mkParser L (mkTok ILLEGAL (mkPos [] 0 1 1) g) t [] e []) =
  ('(u, L') <- scan X L;; fileLoop X rf f [] (mkParser L' t u [atStart] e [])).
Proof.
  intros. cbn [fileLoop]. unfold curr, parseRule. cbn [cur]. unfold curr. cbn [cur tTok]. change (teq ILLEGAL EOF) with false. cbv iota. cbn [rbind handle notNil].
  unfold addDiag, pnext. cbn [lx pk perrors env tasks cur app]. destruct (scan X L) as [[u L']| | |]; reflexivity.
Qed.

Lemma parse_two : forall f s e, parseSource X f s e = ('(t, l1) <- scan X (newLexer s);; '(u, l2) <- scan X l1;; parseFile X f (mkParser l2 t u [] e [])).
Proof.
  intros f s e. unfold parseSource, newParser, pnext. cbn [lx pk perrors env tasks]. destruct (scan X (newLexer s)) as [[a b]| | |]; auto. cbn [rbind lx pk perrors env tasks].
  destruct (scan X b) as [[a' b']| | |]; auto.
Qed.

(** Whatever is behind it, the stray character is reported, unless nothing is. *)
Lemma stray_refused : forall f g s e t ds p, stray g -> decodable s -> parseSource X f (g ++ s) e = Ok ((t, ds), p) ->
  (t = None /\ ds = None) \/ exists more, ds = Some (atStart :: more).
Proof.
  intros f g s e t ds p HG D H. destruct (stray_first g s HG D) as (L & SC & _). rewrite parse_two, SC in H. cbn [rbind] in H.
  destruct (scan X L) as [[t1 L1]| | |]; cbn [rbind] in H; try discriminate. unfold parseFile in H. cbn [lx] in H. destruct (errors L1); [|injection H as <- <- _; now left].
  right. destruct f as [|f]; [discriminate H|]. rewrite stray_step in H. destruct (scan X L1) as [[u L2]| | |]; cbn [rbind] in H; try discriminate.
  destruct (fileLoop X (S f) f [] (mkParser L2 t1 u [atStart] e [])) as [[R q]| | |] eqn:EF; cbn [rbind] in H; try discriminate. injection H as _ <- _.
  apply fileLoop_grows in EF as (nr & ne & nd & _ & _ & EF). destruct (runTasks_spec q) as (R1 & _). rewrite R1, EF. cbn [perrors app]. unfold collect. eauto.
Qed.
End Stray.

(** ** The property *)

(** C112. A stray character before a source costs one diagnostic, before the others; all else
    is as without it, only further right on the first line. *)
Theorem C112_stray : forall X g s e, stray g -> decodable s -> let m := Z.of_nat (length g) in
  strayed m (parseSource X (parseFuel s) s e) (parseSource X (parseFuel (g ++ s)) (g ++ s) (map (mvDef (right m) same) e)).
Proof.
  intros X g s e HG D m. assert (D' : decodable (g ++ s)) by (apply good_app; auto; apply HG). destruct (stray_first X g s HG D) as (L & SC & M). fold m in M.
  destruct (C14_terminates X s e D) as (r & NH & NF & HR). rewrite (HR _ (Nat.le_refl _)).
  destruct (C14_terminates X (g ++ s) (map (mvDef (right m) same) e) D') as (r' & NH' & NF' & HR'). rewrite (HR' _ (Nat.le_refl _)).
  set (F := Nat.max (parseFuel s) (parseFuel (g ++ s))). specialize (HR F (Nat.le_max_l _ _)). specialize (HR' (S F) (Nat.le_trans _ _ _ (Nat.le_max_r _ _) (Nat.le_succ_diag_r F))). fold F in HR'.
  rewrite parse_two in HR, HR'. rewrite SC in HR'. cbn [rbind] in HR'. pose proof (M 1%nat) as M1. pose proof (M 2%nat) as M2. cbn [scans] in M1, M2.
  destruct (scan_full_err X s (newLexer s) 0 (newLexer_st s D)) as [[SC1 _]|(g1 & tk & text & lit & rest & l1 & _ & _ & _ & SC1 & S1 & _)]; rewrite SC1 in *; cbn [rbind] in *.
  - destruct (scan X L) as [[t1 L1]| | |]; cbn [rbind relRes] in *; try contradiction. subst r r'. now left.
  - set (t := mkTok tk _ lit) in *. destruct (scan X L) as [[t1 L1]| | |] eqn:SCL; cbn [rbind relRes fst snd map] in *; try contradiction. destruct M1 as [M1 E1]. injection M1 as ->.
    destruct (scan X l1) as [[u l2]| | |] eqn:SC2, (scan X L1) as [[u' L2]| | |] eqn:SC2'; cbn [rbind relRes fst snd map] in *; try contradiction; try (subst r; congruence).
    + destruct M2 as [M2 E2]. injection M2 as ->. unfold parseFile in HR, HR'. cbn [lx] in HR, HR'. destruct (errors l2) eqn:EL; [|subst r; exact I].
      assert (EL1 : errors l1 = []) by (apply (Props_Crlf.errors_back X s 1 l1 _ [u] l2 S1); auto; cbn [scans]; now rewrite SC2).
      rewrite (proj1 E1 EL1), stray_step, SC2' in HR'. cbn [rbind] in HR'. specialize (proj1 E2 eq_refl) as EL2.
      set (p0 := mkParser l2 t u [] e []) in *. set (q0 := mkParser L2 (mvTok (right m) same t) (mvTok (right m) same u) [atStart] (map (mvDef (right m) same) e) []) in *.
      assert (HM : mov X (right m) same [atStart] p0 q0).
      { constructor; auto. intros n. unfold p0, q0. cbn [lx]. specialize (M (2 + n)%nat). cbn [Nat.add scans] in M. rewrite SC1 in M. cbn [rbind] in M. rewrite SC2, SCL in M. cbn [rbind] in M. rewrite SC2' in M. cbn [rbind] in M.
        destruct (scans X n l2) as [[us m']| | |], (scans X n L2) as [[us' m'']| | |]; cbn [rbind relRes fst map app] in *; auto. destruct M as [M _]. congruence. }
      destruct (fileLoop_below X F (S F) (Nat.le_succ_diag_r F) F F [] p0 (Nat.le_refl F)) as [K|K]; [exfalso; apply NF; rewrite <- HR, K; reflexivity|].
      pose proof (fileLoop_mov X (right m) same [atStart] (right_line m) (right_col m) (right_to m) eq_refl eq_refl (S F) F [] _ _ HM) as HL. rewrite <- K in HL. cbn [map] in HL.
      destruct (fileLoop X F F [] p0) as [[R q]| | |], (fileLoop X (S F) F [] q0) as [[R' q']| | |]; cbn [relRes] in HL; try contradiction; cbn [rbind] in HR, HR'; subst r r'; cbn [strayed]; auto.
      destruct HL as [HL1 HL2]. cbn [fst snd] in *. subst R'. pose proof (runTasks_mov X (right m) same [atStart] _ _ HL2) as HT.
      exists (runTasks q'). split; [|apply HT]. rewrite (mv_errs _ _ _ _ _ _ HT). unfold collect. destruct (perrors (runTasks q)); reflexivity.
    + unfold parseFile in HR'. cbn [lx] in HR'. destruct (errors L1); [rewrite stray_step, SC2' in HR'; cbn [rbind] in HR'; subst r r'; now left|subst r r'; right; eauto].
Qed.

(** No code is ever generated from such a source. *)
Theorem C112_refused : forall X C pkg g s text, stray g -> decodable s -> ~ Compiled X C pkg (g ++ s) text.
Proof.
  intros X C pkg g s text HG D (root & p & gn & H & _). unfold parse, newEnvironment in H. apply stray_refused in H as [[H _]|(more & H)]; auto; discriminate.
Qed.

Lemma encode_bytes : forall r, scalar r -> bytesOk (encodeRune r).
Proof.
  intros r [H NS]. unfold encodeRune, inRangeB, bytesOk. pose proof (Z_mod_lt r 64 eq_refl). pose proof (Z_mod_lt (r / 64) 64 eq_refl). pose proof (Z_mod_lt (r / 4096) 64 eq_refl).
  destruct ((0 <=? r) && (r <? 128)) eqn:E1; [repeat constructor; lia|]. destruct ((0 <=? r) && (r <? 2048)) eqn:E2.
  { assert (Q : 2 <= r / 64 < 32) by (split; [apply Z.div_le_lower_bound|apply Z.div_lt_upper_bound]; lia). repeat constructor; lia. }
  destruct ((r <? 0) || (1114111 <? r) || ((55296 <=? r) && (r <=? 57343))); [repeat constructor; lia|]. destruct (r <? 65536) eqn:E3.
  { assert (Q : 0 <= r / 4096 < 16) by (split; [apply Z.div_le_lower_bound|apply Z.div_lt_upper_bound]; lia). repeat constructor; lia. }
  assert (Q : 0 <= r / 262144 < 5) by (split; [apply Z.div_le_lower_bound|apply Z.div_lt_upper_bound]; lia). repeat constructor; lia.
Qed.

(** All characters beyond ASCII are stray, but for U+FFFD, on which the lexer hangs or panics. *)
Theorem C112_beyond_ascii : forall r, scalar r -> 128 <= r -> r <> RuneError -> stray (encodeRune r).
Proof.
  intros r HS HR NE. destruct (encode_high r HS HR) as (b & t & E & HB & HT & _).
  pose proof (encode_rune r [] HS) as DR. rewrite app_nil_r in DR. unfold zlen in DR.
  split; [split; [now apply encode_bytes|]|].
  - apply (Dec_rune _ r (Z.of_nat (length (encodeRune r)))); auto; [rewrite E; discriminate|]. rewrite Nat2Z.id, skipn_all. constructor.
  - split.
    + rewrite E. intros [K|K]; [lia|]. rewrite Forall_forall in HT. apply HT in K. lia.
    + exists b, t, r. split; auto. split; auto. unfold identStart, digit, blank. repeat split; try lia. intros w tk K. unfold punctTable in K. cbn [In] in K.
      repeat (destruct K as [K|K]; [injection K as K _ _; lia|]). exact K.
Qed.

Corollary C112_mark : stray byteOrderMark.
Proof. change byteOrderMark with (encodeRune 65279). apply C112_beyond_ascii; [split; lia|lia|discriminate]. Qed.

(** What [generate] does with such a file: it does not succeed, and the output file, if it can
    be opened, is left empty. *)
Theorem C112_generate : forall X C O pkg src out f g s f' outs oc, stray g -> decodable s -> readFile O f src = Some (g ++ s) ->
  generateFile X C O pkg src out f = (f', outs, oc) ->
  oc <> Success /\ ((openWrite O true f out = None /\ f' = f) \/ look f' out = Some (EFile [])).
Proof.
  intros X C O pkg src out f g s f' outs oc HG D R H. destruct (C42_output _ _ _ _ _ _ _ _ _ _ H) as [(_ & s0 & text & R' & HC & _)|[(N & -> & K)|(N & K & _)]].
  - rewrite R in R'. injection R' as <-. exfalso. exact (C112_refused _ _ _ _ _ _ HG D HC).
  - split; auto. left. split; auto. destruct K as [K|K]; [congruence|exact K].
  - auto.
Qed.

(** ** Examples *)

Definition strayRest : bytes := str "a=[b" ++ [10] ++ str "c" ++ [10] ++ str "d=int" ++ [10] ++ str "d=~" ++ [10].
Definition strayOut : res (fileResult * parser) := Eval vm_compute in parse X0 strayRest.
Definition markOut : res (fileResult * parser) := Eval vm_compute in parse X0 (byteOrderMark ++ strayRest).

Lemma stray_is : parse X0 strayRest = strayOut.
Proof. vm_compute. reflexivity. Qed.

Lemma mark_is : parse X0 (byteOrderMark ++ strayRest) = markOut.
Proof. vm_compute. reflexivity. Qed.

Definition placesOf (ds : list diag) : list (Z * Z * Z) := map (fun d => (pLine (dStart d), pColumn (dStart d), pOffset (dStart d))) ds.

(** Diagnostics on the first line and on others. *)
Example C112_ex : stray byteOrderMark /\ decodable strayRest /\ exists t ds p t' ds' p',
  parse X0 strayRest = Ok ((Some t, Some ds), p) /\ parse X0 (byteOrderMark ++ strayRest) = Ok ((Some t', Some ds'), p') /\
  placesOf ds = [(3, 2, 8); (3, 3, 9); (5, 1, 17); (1, 4, 3); (2, 1, 5); (3, 1, 7)] /\
  placesOf ds' = [(1, 1, 0); (3, 2, 11); (3, 3, 12); (5, 1, 20); (1, 7, 6); (2, 1, 8); (3, 1, 10)].
Proof.
  split; [exact C112_mark|]. split; [now apply good_by_ascii|]. do 6 eexists. rewrite stray_is, mark_is. repeat split; reflexivity.
Qed.

Lemma percent : stray (str "%").
Proof.
  split; [now apply good_by_ascii|]. split; [intros K; cbn in K; intuition discriminate|]. exists 37, [], 37. split; [reflexivity|]. split; [reflexivity|].
  unfold identStart, digit, blank. repeat split; try lia. intros w tk K. unfold punctTable in K. cbn [In] in K. repeat (destruct K as [K|K]; [discriminate K|]). exact K.
Qed.

(** The two exceptions in [strayed] occur. An early lexer error is no longer early behind a
    stray character, and is never heard of; a crash on the second token is one no longer if
    the first token has an error. *)
Theorem C112_early_refuted :
  (exists g s p t ds p', stray g /\ decodable s /\ parse X0 s = Ok ((None, None), p) /\ parse X0 (g ++ s) = Ok ((Some t, Some ds), p')) /\
  (exists g s p, stray g /\ decodable s /\ parse X0 s = Panic /\ parse X0 (g ++ s) = Ok ((None, None), p)).
Proof.
  split.
  - exists (str "%"), (str "a""b"). do 4 eexists. split; [exact percent|]. split; [now apply good_by_ascii|]. split; vm_compute; reflexivity.
  - exists (str "%"), (str """a" ++ [10] ++ str """" ++ [10]). eexists. split; [exact percent|]. split; [now apply good_by_ascii|]. split; vm_compute; reflexivity.
Qed.
