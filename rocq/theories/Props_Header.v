(** Property C108: comment lines at the top of a source. *)
From Coq Require Import String.
From Verif Require Import Base Utf8 Token Strconv Ext Lexer LexSpec LexSpec2 LexSpec3 LexerProofs LexOne LexSeq LexWords Ast Env Diag Parser Doc ParseSource ParseTwin ParseFuel ParseLayout ParseMove Codegen Cli
  Props_Lexer Props_LexFull Props_Parser Props_Codegen Props_Report Props_Cli Props_Layout Props_Reformat Props_Move.
Open Scope string_scope.
Open Scope list_scope.
Open Scope Z_scope.

(** ** Specification *)

(** Lines of blanks and of comments with these texts. *)
Inductive headerOf : list bytes -> bytes -> Prop :=
| ho_end : forall g, blankLines g -> headerOf [] g
| ho_line : forall i w ws g, allBlank i -> ~ In 10 w -> headerOf ws g -> headerOf (w :: ws) (i ++ 59 :: w ++ 10 :: g).

(** A comment node with these texts. *)
Definition noteOf (ws : list bytes) (n : node) : Prop :=
  (exists c, n = NComment c /\ ws = [cText c]) \/ (exists l, n = NCommentGroup l /\ (1 < length l)%nat /\ ws = map cText l).

(** ** The tokens *)

Section header.
Variable X : Ext.

Lemma errors_back : forall s n l k ts l', St s l k -> scans X n l = Ok (ts, l') -> errors l' = [] -> errors l = [].
Proof.
  intros s. induction n as [|n IH]; intros l k ts l' HS H E; cbn [scans] in H; [congruence|].
  destruct (scan_full_err X s l k HS) as [[SC _]|(g & tk & text & lit & rest & l1 & _ & _ & _ & SC & S1 & _ & ER & _)]; rewrite SC in H; cbn [rbind] in H; [discriminate|].
  destruct (scans X n l1) as [[us m]| | |] eqn:E1; cbn [rbind] in H; try discriminate. injection H as <- <-.
  pose proof (IH _ _ _ _ S1 E1 E) as K. destruct ER as [[_ R]|[_ R]]; congruence.
Qed.

Lemma header_scans : forall ws g, headerOf ws g -> forall full s l k h, St full l k -> skipn k full = h ++ g ++ s -> allBlank h -> errors l = [] ->
  exists cs L j h', scans X (length ws) l = Ok (cs, L) /\ map tLit cs = ws /\ Forall (fun t => tTok t = COMMENT) cs /\ St full L j /\
    skipn j full = h' ++ s /\ allBlank h' /\ (j + length h' = k + length h + length g)%nat /\ errors L = [].
Proof.
  intros ws g H. induction H as [g B|i w ws g Bi Nw HO IH]; intros full s l k h HS E Bh ER.
  - exists [], l, k, (h ++ g). cbn [scans length map]. repeat split; auto; try apply HS; [rewrite E; now rewrite app_assoc|apply Forall_app; split; auto; apply B|rewrite app_length; lia].
  - assert (E2 : skipn k full = (h ++ i) ++ (59 :: w) ++ (10 :: g ++ s)). { rewrite E. rewrite <- !app_assoc. cbn [app]. now rewrite <- app_assoc. }
    assert (LX : Lexed X COMMENT (59 :: w) w (10 :: g ++ s)) by (constructor; auto).
    assert (BI : allBlank (h ++ i)) by (apply Forall_app; auto).
    destruct (scan_full_err X full l k HS) as [[SC N]|(g1 & tk & text & lit & rest & l1 & N1 & N2 & N3 & SC & S1 & N4 & ER1 & U)]; [destruct (N _ _ _ _ _ E2 BI LX)|].
    destruct (U _ _ _ _ _ E2 BI LX) as (<- & <- & <- & <- & <-).
    assert (E3 : skipn (k + length (h ++ i) + length (59 :: w)) full = [10] ++ g ++ s).
    { rewrite app_assoc in E2. rewrite <- Nat.add_assoc, <- app_length. apply (skipn_more _ _ _ _ E2). }
    assert (ER2 : errors l1 = []). { destruct ER1 as [[_ R]|[O _]]; [congruence|]. destruct O as (a & _ & O & _). discriminate O. }
    destruct (IH full s l1 _ [10] S1 E3) as (cs & L & j & h' & A1 & A2 & A3 & A4 & A5 & A6 & A7 & A8); auto; [constructor; [unfold blank; lia|constructor]|].
    exists (mkTok COMMENT (posAt full (k + length (h ++ i))) w :: cs), L, j, h'. cbn [scans length]. rewrite SC. cbn [rbind]. rewrite A1. cbn [rbind map tLit]. rewrite A2.
    repeat split; auto; try apply A4. rewrite !app_length in *. cbn [length] in *. rewrite app_length. cbn [length]. lia.
Qed.

(** ** The parser *)

Definition commentOf (t : tokInfo) : comment := mkComment (tPos t) (tLit t).

Lemma last_def : forall A (l : list A) a d d', last (a :: l) d = last (a :: l) d'.
Proof. intros A. induction l as [|b l IH]; intros a d d'; [reflexivity|]. change (last (b :: l) d = last (b :: l) d'). apply IH. Qed.

Lemma loop_run : forall cs l c t0 ts u l1 pe e tk acc f, scans X (length ts) l = Ok (ts, l1) -> t0 :: ts = cs ++ [u] -> Forall (fun t => tTok t = COMMENT) cs -> tTok u <> COMMENT ->
  commentLoop X (length cs + f) acc (mkParser l c t0 pe e tk) = Ok (acc ++ map commentOf cs, mkParser l1 (last (c :: cs) c) u pe e tk).
Proof.
  induction cs as [|c1 cs IH]; intros l c t0 ts u l1 pe e tk acc f H E F N.
  - cbn [app] in E. injection E as -> ->. cbn [scans length] in H. injection H as <-. cbn [length Nat.add map last]. rewrite app_nil_r.
    destruct f; cbn [commentLoop]; unfold peekTok; cbn [pk]; unfold teq; destruct (token_eq_dec (tTok u) COMMENT); congruence.
  - cbn [app] in E. injection E as -> E. pose proof (Forall_inv F) as H1. pose proof (Forall_inv_tail F) as H2. cbn beta in H1. destruct ts as [|t1 ts]; [destruct cs; discriminate|]. cbn [length scans] in H.
    destruct (scan X l) as [[t l']| | |] eqn:SC; cbn [rbind] in H; try discriminate. destruct (scans X (length ts) l') as [[us l2]| | |] eqn:E2; cbn [rbind] in H; try discriminate. injection H as -> -> ->.
    cbn [length Nat.add commentLoop]. unfold peekTok. cbn [pk]. rewrite H1. cbn [teq]. change (teq COMMENT COMMENT) with true. cbv iota.
    unfold pnext. cbn [lx]. rewrite SC. cbn [rbind pk perrors env tasks].
    rewrite (IH l' c1 t1 ts u l1 pe e tk _ f E2 E H2 N). unfold parseInnerComment, pos, currLit. cbn [cur]. cbn [map]. rewrite <- app_assoc. cbn [app]. unfold commentOf at 1.
    f_equal. f_equal. f_equal. change (last (c :: c1 :: cs) c) with (last (c1 :: cs) c). change (last (c1 :: cs) c1) with (last (c1 :: cs) c1). apply last_def.
Qed.

Lemma fileLoop_pre : forall rf f a acc p, fileLoop X rf f (a ++ acc) p = ('(l, q) <- fileLoop X rf f acc p;; Ok (a ++ l, q)).
Proof.
  intros rf. induction f as [|f IH]; intros a acc p; cbn [fileLoop]; (destruct (teq (curr p) EOF); [reflexivity|]); [reflexivity|].
  destruct (parseRule X rf p) as [[[e d] p1]| | |]; cbn [rbind]; auto. destruct (pnext X (handle p1 d)) as [p2| | |]; cbn [rbind]; auto.
  destruct (notNil e); [rewrite <- app_assoc|]; apply IH.
Qed.

Lemma header_since : forall ws g, headerOf ws g -> sinceNewline g 0 = 0.
Proof.
  intros ws g H. induction H as [g B|i w ws g Bi Nw HO IH]; [now apply lines_since|].
  replace (i ++ 59 :: w ++ 10 :: g) with ((i ++ 59 :: w) ++ [10] ++ g) by now rewrite <- app_assoc. rewrite since_app, since_app. cbn [sinceNewline Z.eqb]. exact IH.
Qed.

(** The parser behind the header is the one at the start of the source, moved. *)
Theorem C108_header : forall ws g s e l ds p, headerOf ws g -> ws <> [] -> decodable g -> decodable s -> (forall i r, s = i ++ 59 :: r -> ~ allBlank i) ->
  parseSource X (parseFuel s) s e = Ok ((Some (NCDDL zeroPos l), ds), p) ->
  let m := Z.of_nat (length g) in let k := newlines g in
  exists n p', parseSource X (parseFuel (g ++ s)) (g ++ s) (map (mvDef m k) e) = Ok ((Some (NCDDL zeroPos (n :: map (move m k) l)), option_map (map (mvD m k)) ds), p') /\
    noteOf ws n /\ env p' = map (mvDef m k) (env p).
Proof.
  intros ws g s e l ds p H NE Dg Ds NC HP m k. assert (D' : decodable (g ++ s)) by now apply good_app.
  destruct (header_scans ws g H (g ++ s) s (newLexer (g ++ s)) 0%nat [] (newLexer_st _ D') eq_refl (Forall_nil _)) as (cs & L & j & h & A1 & A2 & A3 & A4 & A5 & A6 & A7 & A8).
  { apply (newLexer_at (g ++ s) D'). }
  assert (M : forall n, relRes (fun x y => fst y = map (mvTok m k) (fst x) /\ (errors (snd x) = [] <-> errors (snd y) = [])) (scans X n (newLexer s)) (scans X n L)).
  { intros n. apply (move_scans X g s (header_since ws g H) n _ _ 0%nat j h); auto using newLexer_st; [cbn [length] in A7; lia|]. destruct (newLexer_at s Ds) as (_ & -> & _). tauto. }
  (* the source alone *)
  destruct (C14_terminates X s e Ds) as (r & _ & _ & HR). rewrite (HR _ (Nat.le_refl _)) in HP. subst r.
  destruct (C14_terminates X (g ++ s) (map (mvDef m k) e) D') as (r' & _ & _ & HR'). rewrite (HR' _ (Nat.le_refl _)).
  set (F := Nat.max (parseFuel s) (Nat.max (parseFuel (g ++ s)) (length ws))).
  assert (HF : (parseFuel s <= F)%nat) by (unfold F; lia). assert (HF' : (parseFuel (g ++ s) <= S F)%nat) by (unfold F; lia). assert (HW : (length ws <= F)%nat) by (unfold F; lia).
  specialize (HR F HF). rewrite <- (HR' (S F) HF'). clear HR'. unfold parseSource in *. rewrite ParseLayout.newParser_toks in HR |- *.
  pose proof (M 2%nat) as M2. destruct (scans X 2 (newLexer s)) as [[ts l2]| | |] eqn:E2; cbn [rbind] in HR; try discriminate. pose proof (ParseLayout.scans_len _ _ _ _ _ E2) as L2.
  destruct ts as [|t [|u [|? ?]]]; try discriminate L2. cbn [rbind] in HR. destruct (scans X 2 L) as [[ts' L2']| | |] eqn:E2'; cbn [relRes fst snd map] in M2; try contradiction. destruct M2 as [-> ME].
  assert (NT : tTok t <> COMMENT).
  { cbn [scans] in E2. destruct (scan_full_err X s (newLexer s) 0 (newLexer_st s Ds)) as [[SC _]|(g1 & tk & text & lit & rest & l1 & N1 & N2 & N3 & SC & _)]; rewrite SC in E2; cbn [rbind] in E2; [discriminate|].
    destruct (scan X l1) as [[t2 l3]| | |]; cbn [rbind] in E2; try discriminate. injection E2 as <- <- <-. cbn [tTok]. intros ->. inversion N3; subst; cbn [skipn] in N1; try (exfalso; eapply NC; eauto; fail). all: try (exfalso; eapply kind_comment; eassumption). all: try (match goal with H : In _ punctTable |- _ => cbn in H; repeat (destruct H as [H | H]; [congruence |]); destruct H end). }
  unfold parseFile in HR. cbn [lx] in HR. destruct (errors l2) eqn:EE; [|discriminate]. destruct ME as [ME _]. specialize (ME eq_refl).
  destruct (fileLoop X F F [] (mkParser l2 t u [] e [])) as [[R q]| | |] eqn:EF; cbn [rbind] in HR; try discriminate. injection HR as <- <- <-.
  (* the parser of both *)
  destruct cs as [|c cs]; [destruct ws; [congruence|discriminate A2]|]. assert (LW : length ws = S (length cs)) by (rewrite <- A2; cbn [map length]; now rewrite map_length).
  assert (E1' : exists L1, scans X 1 L = Ok ([mvTok m k t], L1) /\ scan X L1 = Ok (mvTok m k u, L2')).
  { cbn [scans] in E2' |- *. destruct (scan X L) as [[a L1]| | |]; cbn [rbind] in *; try discriminate. destruct (scan X L1) as [[b L3]| | |] eqn:E3; cbn [rbind] in *; try discriminate. injection E2' as <- <- <-. exists L1. auto. }
  destruct E1' as (L1 & E1' & E1'').
  assert (EA : scans X (2 + length cs) (newLexer (g ++ s)) = Ok ((c :: cs) ++ [mvTok m k t], L1)).
  { replace (2 + length cs)%nat with (length ws + 1)%nat by lia. rewrite ParseLayout.scans_app, A1. cbn [rbind]. rewrite E1'. reflexivity. }
  rewrite ParseLayout.scans_app in EA. destruct (scans X 2 (newLexer (g ++ s))) as [[hs la]| | |] eqn:EH; cbn [rbind] in EA |- *; try discriminate.
  pose proof (ParseLayout.scans_len _ _ _ _ _ EH) as LH. destruct hs as [|c' [|t0 [|? ?]]]; try discriminate LH. cbn [rbind].
  destruct (scans X (length cs) la) as [[ts lb]| | |] eqn:ET; cbn [rbind app] in EA; try discriminate. injection EA as -> EA ->.
  assert (LT : length ts = length cs) by (apply (ParseLayout.scans_len _ _ _ _ _ ET)).
  assert (EL : errors la = []).
  { destruct (scan_full_err X (g ++ s) (newLexer (g ++ s)) 0 (newLexer_st _ D')) as [[SC _]|(g1 & tk & text & lit & rest & l1 & _ & _ & _ & SC & S1 & _ & _ & _)]; cbn [scans] in EH; rewrite SC in EH; cbn [rbind] in EH; [discriminate|].
    destruct (scan_full_err X (g ++ s) l1 _ S1) as [[SC2 _]|(g2 & tk2 & text2 & lit2 & rest2 & l3 & _ & _ & _ & SC2 & S2 & _ & _ & _)]; rewrite SC2 in EH; cbn [rbind] in EH; [discriminate|]. injection EH as _ _ <-.
    eapply (errors_back (g ++ s) (length cs + 1) l3 _ (ts ++ [mvTok m k u]) L2' S2); auto. rewrite ParseLayout.scans_app, ET. cbn [rbind scans]. rewrite E1''. reflexivity. }
  unfold parseFile. cbn [lx]. rewrite EL. inversion A3 as [|? ? C1 C2]; subst.
  assert (PC : parseComment X (S F) (mkParser la c t0 [] (map (mvDef m k) e) []) =
    Ok (match map commentOf (c :: cs) with [x] => NComment x | y => NCommentGroup y end, None, mkParser L1 (last (c :: cs) c) (mvTok m k t) [] (map (mvDef m k) e) [])).
  { unfold parseComment. replace (S F) with (length cs + (S F - length cs))%nat by lia. rewrite <- LT in ET.
    rewrite (loop_run cs la c t0 ts (mvTok m k t) L1 [] _ [] _ _ ET EA C2 NT). cbn [rbind app]. unfold parseInnerComment, pos, currLit. cbn [cur]. cbn [map]. fold (commentOf c).
    destruct (map commentOf cs); reflexivity. }
  set (node := match map commentOf (c :: cs) with [x] => NComment x | y => NCommentGroup y end) in *.
  set (q0 := mkParser L2' (mvTok m k t) (mvTok m k u) [] (map (mvDef m k) e) []).
  assert (EN : fileLoop X (S F) (S F) [] (mkParser la c t0 [] (map (mvDef m k) e) []) = fileLoop X (S F) F ([node] ++ []) q0).
  { cbn [fileLoop]. unfold curr, parseRule. cbn [cur]. unfold curr. cbn [cur]. rewrite C1. change (teq COMMENT EOF) with false. cbv iota. rewrite PC. cbn [rbind handle]. unfold pnext. cbn [lx]. rewrite E1''. cbn [rbind pk perrors env tasks].
    assert (NN : notNil node = true) by (unfold node; cbn [map]; destruct (map commentOf cs); reflexivity). rewrite NN. reflexivity. }
  rewrite EN, fileLoop_pre.
  assert (HM : mov X m k (mkParser l2 t u [] e []) q0).
  { constructor; auto. intros n. unfold q0; cbn [lx]. specialize (M (2 + n)%nat). rewrite !ParseLayout.scans_app, E2, E2' in M. cbn [rbind] in M.
    destruct (scans X n l2) as [[us m']| | |], (scans X n L2') as [[us' m'']| | |]; cbn [rbind relRes fst map app] in *; auto. destruct M as [M _]. congruence. }
  assert (EF' : fileLoop X (S F) F [] (mkParser l2 t u [] e []) = Ok (R, q)).
  { destruct (fileLoop_below X F (S F) (Nat.le_succ_diag_r F) F F [] (mkParser l2 t u [] e []) (Nat.le_refl F)); congruence. }
  pose proof (fileLoop_mov X m k (newlines_pos g) (S F) F [] _ _ HM) as HL. rewrite EF' in HL. cbn [map] in HL. destruct (fileLoop X (S F) F [] q0) as [[R' q']| | |]; cbn [relRes] in HL; try contradiction.
  destruct HL as [HL1 HL2]. cbn [fst snd] in *. subst R'. cbn [rbind app]. pose proof (runTasks_mov X m k _ _ HL2) as HT.
  exists node, (runTasks q'). split; [|split].
  - f_equal. f_equal. f_equal. rewrite (mv_errs _ _ _ _ _ HT). unfold collect. destruct (perrors (runTasks q)); reflexivity.
  - assert (TX : map cText (map commentOf (c :: cs)) = map tLit (c :: cs)) by (rewrite map_map; reflexivity). rewrite <- TX. unfold node, noteOf. cbn [map]. destruct cs as [|c2 cs]; [left; eexists; split; reflexivity|].
    right. eexists. split; [reflexivity|]. split; [cbn [map length]; lia|reflexivity].
  - apply HT.
Qed.
End header.

(** ** What [generate] makes of it *)

Lemma strip_move : forall m k n, strip (move m k n) = strip n.
Proof.
  intros m k. fix IH 1. intros n.
  assert (L : forall l, map strip (map (move m k) l) = map strip l) by (induction l as [|x l IHl]; [reflexivity|cbn [map]; now rewrite IH, IHl]).
  destruct n; cbn [move strip]; rewrite ?IH, ?L; try reflexivity.
  all: repeat match goal with o : option _ |- _ => destruct o; cbn [option_map] end; try reflexivity.
  f_equal. rewrite map_map. now apply map_ext.
Qed.

(** The hypotheses of C108 for a source and its header. *)
Definition heads (ws : list bytes) (g s : bytes) : Prop :=
  headerOf ws g /\ ws <> [] /\ decodable g /\ decodable s /\ (forall i r, s = i ++ 59 :: r -> ~ allBlank i).

Lemma headed_drawn : forall X ws g s l ds p, heads ws g s -> parse X s = Ok ((Some (NCDDL zeroPos l), ds), p) -> drawn (parse X s) (parse X (g ++ s)).
Proof.
  intros X ws g s l ds p (H & NE & Dg & Ds & NC) P. destruct (C108_header X ws g s [] l ds p H NE Dg Ds NC P) as (n & p' & P' & NO & _). unfold parse, newEnvironment in *. cbn [map] in P'. rewrite P, P'.
  destruct ds as [ds|]; cbn [option_map drawn]; [symmetry; apply map_length|]. cbn [rootNode]. unfold plain. cbn [strip map uncomment flat_map]. f_equal.
  replace (map strip (map (move (Z.of_nat (length g)) (newlines g)) l)) with (map strip l) by (rewrite map_map; apply map_ext; intros; symmetry; apply strip_move).
  destruct NO as [(c & -> & _)|(cs & -> & _)]; reflexivity.
Qed.

(** C108. With or without the header: the same file text, and the same run of [generate]. *)
Theorem C108_generated : forall X C ws g s l ds p, heads ws g s -> parse X s = Ok ((Some (NCDDL zeroPos l), ds), p) -> sameFile X C s (g ++ s) /\ sameRun X C s (g ++ s).
Proof.
  intros X C ws g s l ds p H P. pose proof (headed_drawn X ws g s l ds p H P) as D. split; [now apply drawn_file|]. destruct H as (_ & _ & Dg & Ds & _). apply drawn_run; auto. now apply good_app.
Qed.

(** ** Examples *)

Definition licence : bytes := str "; first" ++ [10; 10] ++ str "  ;second" ++ [13; 10; 10].
Definition headed : bytes := str "a=1" ++ [10] ++ str "a=2".
Definition broken : bytes := str "a ""x".
Definition plainOut : res (fileResult * parser) := Eval vm_compute in parse X0 headed.
Definition headedOut : res (fileResult * parser) := Eval vm_compute in parse X0 (licence ++ headed).
Definition brokenOut : res (fileResult * parser) := Eval vm_compute in parse X0 broken.
Definition coveredOut : res (fileResult * parser) := Eval vm_compute in parse X0 (licence ++ broken).

Lemma plain_is : parse X0 headed = plainOut.
Proof. vm_compute. reflexivity. Qed.

Lemma headed_is : parse X0 (licence ++ headed) = headedOut.
Proof. vm_compute. reflexivity. Qed.

Lemma broken_is : parse X0 broken = brokenOut.
Proof. vm_compute. reflexivity. Qed.

Lemma covered_is : parse X0 (licence ++ broken) = coveredOut.
Proof. vm_compute. reflexivity. Qed.

Lemma licence_header : headerOf [str " first"; str "second" ++ [13]] licence.
Proof.
  apply (ho_line [] (str " first") [str "second" ++ [13]] ([10; 32; 32] ++ 59 :: (str "second" ++ [13]) ++ 10 :: [10])); [apply Forall_nil|cbn; intuition discriminate|].
  apply ho_line; [repeat (apply Forall_cons; [unfold blank; lia|]); apply Forall_nil|cbn; intuition discriminate|].
  apply ho_end. split; [repeat (apply Forall_cons; [unfold blank; lia|]); apply Forall_nil|]. right. now exists [].
Qed.

Lemma heads_word : forall c s, decodable (c :: s) -> c <> 59 -> ~ blank c -> heads [str " first"; str "second" ++ [13]] licence (c :: s).
Proof.
  intros c s D N B. split; [apply licence_header|]. split; [discriminate|]. split; [now apply good_by_ascii|]. split; [assumption|].
  intros i r E Bi. destruct i as [|b i]; injection E as -> ->; [congruence|]. apply Forall_inv in Bi. contradiction.
Qed.

(** Two comments before a rule that is defined twice. *)
Example C108_ex : heads [str " first"; str "second" ++ [13]] licence headed /\ exists l c1 c2 l' d d' p p',
  parse X0 headed = Ok ((Some (NCDDL zeroPos l), Some [d]), p) /\
  parse X0 (licence ++ headed) = Ok ((Some (NCDDL zeroPos (NCommentGroup [c1; c2] :: l')), Some [d']), p') /\
  length l = 2%nat /\ length l' = 2%nat /\ pLine (dStart d) = 2 /\ pLine (dStart d') = 6 /\ dMsg d' = MExisting (str "a") 5 3.
Proof.
  split; [apply heads_word; [now apply good_by_ascii|discriminate|intros B; vm_compute in B; intuition discriminate]|]. do 8 eexists. rewrite plain_is, headed_is. repeat split; reflexivity.
Qed.

(** Without a tree the header does make a difference: the source alone has a bad second token and gives neither a tree
    nor diagnostics, with the header the bad token is not among the first two and there are both. *)
Theorem C108_early_refuted : exists ws g s, heads ws g s /\ exists p t d p',
  parse X0 s = Ok ((None, None), p) /\ parse X0 (g ++ s) = Ok ((Some t, Some [d]), p') /\ dMsg d = MExpectedAssign (str "a").
Proof.
  exists [str " first"; str "second" ++ [13]], licence, broken. split; [apply heads_word; [now apply good_by_ascii|discriminate|intros B; vm_compute in B; intuition discriminate]|].
  do 4 eexists. rewrite broken_is, covered_is. repeat split; reflexivity.
Qed.
