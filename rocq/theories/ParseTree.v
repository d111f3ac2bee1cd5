(** What an accepted source says about its tree. *)
From Coq Require Import String.
From Verif Require Import Base Utf8 Token Ext Strconv StrconvSpec StrconvProofs Lexer LexSpec LexSpec2 LexerProofs LexOne LexSeq Ast Env Diag
  Parser ParseSpec ParseStream ParseFacts ParseSound ParseLoop ParseTop ParseComplete ParseFileC ParseShape ParseSource ParseUnique.
Open Scope string_scope.
Open Scope list_scope.
Open Scope Z_scope.

(** A parse without diagnostics, taken apart. *)
Lemma accepted_inv : forall X s e root p', decodable s ->
  parseSource X (parseFuel s) s e = Ok ((Some root, None), p') ->
  exists ts eof tk rules defs k, root = NCDDL zeroPos rules /\ Str X (newLexer s) ts (FEof eof) /\
    covers s 0 ts k /\ eof = mkTok EOF (posAt s (length s)) [] /\
    File X ts eof rules tk defs /\ env p' = e ++ defs /\ tasks p' = tk /\
    (NoDup (names e) -> NoDup (names (e ++ defs))) /\ Forall (fun t => runTask (e ++ defs) t = None) tk.
Proof.
  intros X s e root p' D E.
  destruct (new_str X s D) as (ts & f & k & HS & HC & _ & HL & HE).
  assert (HF : (length ts <= parseFuel s)%nat) by (unfold parseFuel; lia).
  pose proof (source_post X _ s e (parseFuel s) ts f HS HF (posOk_true ts f)) as H.
  rewrite E in H. cbn [wp] in H.
  destruct H as (t2 & l2 & H2 & [(_ & H3 & _)|(H3 & rules' & tk & df & ds & H4 & H5 & H6 & H7 & H8 & H9 & H10 & H11 & H12)]); [discriminate|].
  inversion H4 as [[Hr Hc]]. symmetry in Hc. apply collect_none in Hc. rewrite Hc in H5. symmetry in H5.
  apply app_eq_nil in H5 as [-> H5]. specialize (H12 eq_refl).
  exists ts, (eofOf f), tk, rules', df, k. rewrite <- H11. repeat split; auto.
  - rewrite H11 in HE. simpl in HE. tauto.
  - now apply failures_nil.
Qed.

(** Nodes at the top of a file. *)
Inductive RuleShape (P : tokInfo -> Prop) : node -> Prop :=
| RS_comment : forall c, P c -> tTok c = COMMENT -> RuleShape P (NComment (commentOf c))
| RS_comments : forall cms, cms <> [] -> Forall P cms -> Forall commentTok cms -> RuleShape P (NCommentGroup (map commentOf cms))
| RS_rule : forall p w v, P (mkTok IDENT p w) -> real v -> RuleShape P (NRule zeroPos (mkIdent p w) v None)
| RS_ruleComment : forall p w v c, P (mkTok IDENT p w) -> P c -> tTok c = COMMENT -> real v ->
    RuleShape P (NRule zeroPos (mkIdent p w) v (Some (commentOf c))).

Lemma file_rules : forall X P T ts eof rules tk df, File X ts eof rules tk df -> Forall P ts -> Forall T tk ->
  Forall (fun r => RuleShape P r /\ forall m, within r m -> m = r \/ Shape X P T m \/ isNil m) rules.
Proof.
  intros X P T ts eof rules tk df H. destruct (grammar_shapes X P T) as [HG _].
  assert (HW : forall i u nx v tk0 c, Entry X u nx v tk0 -> Forall P u -> Forall T tk0 ->
    forall m, within (NRule zeroPos i v c) m -> m = NRule zeroPos i v c \/ Shape X P T m \/ isNil m).
  { intros i u nx v tk0 c HE HU HK m HM. inversion HM as [|? m1 ? HC HM']; subst; auto.
    inversion HC; subst. right. eapply HG; eauto. }
  induction H as [eof|c cms ts eof rules tk defs HC HN HF IH|p w a t e ts eof v rules tk tk' defs HA HE HT HF IH
    |p w a t e c sw ts eof v rules tk tk' defs HA HE HT HS HF IH]; intros HP HT2; auto.
  - apply Forall_app in HP as [HP1 HP2]. constructor; auto. split.
    + destruct cms as [|c2 cms]; unfold commentNode.
      * constructor; [now inversion HP1|now inversion HC].
      * constructor; auto; discriminate.
    + intros m HM. left. destruct cms; simpl in HM; inversion HM as [|? m1 ? HC2 _]; subst; auto; inversion HC2.
  - inversion HP as [|? ? P1 HP1]; subst. inversion HP1 as [|? ? P2 HP2]; subst. apply (proj1 (Forall_app P (t :: e) _)) in HP2 as [HP2 HP3].
    apply Forall_app in HT2 as [HT2 HT3]. constructor; auto. split.
    + constructor; auto. eapply Entry_real; eauto.
    + eapply HW; eauto.
  - inversion HP as [|? ? P1 HP1]; subst. inversion HP1 as [|? ? P2 HP2]; subst. apply (proj1 (Forall_app P (t :: e) _)) in HP2 as [HP2 HP3].
    inversion HP3 as [|? ? P4 HP4]; subst. apply Forall_app in HP4 as [_ HP4].
    apply Forall_app in HT2 as [HT2 HT3]. constructor; auto. split.
    + constructor; auto; [apply HT|]. eapply Entry_real; eauto.
    + eapply HW; eauto.
Qed.

Lemma file_shapes : forall X P T ts eof rules tk df, File X ts eof rules tk df -> Forall P ts -> Forall T tk ->
  forall m, within (NCDDL zeroPos rules) m ->
    m = NCDDL zeroPos rules \/ RuleShape P m \/ Shape X P T m \/ isNil m.
Proof.
  intros X P T ts eof rules tk df H HP HT m HM.
  pose proof (file_rules X P T _ _ _ _ _ H HP HT) as HR. rewrite Forall_forall in HR.
  inversion HM as [|? r ? HC HM']; subst; auto. inversion HC; subst.
  destruct (HR r) as [H1 H2]; auto. destruct (H2 m HM') as [->|HX]; auto.
Qed.

(** Definitions come from rules. *)
Lemma file_defs : forall X ts eof rules tk df, File X ts eof rules tk df ->
  forall w v, In (w, v) df -> exists p c, In (NRule zeroPos (mkIdent p w) v c) rules.
Proof.
  intros X ts eof rules tk df H.
  assert (HD : forall a w v w' v', In (w', v') (defOf a w v) -> w' = w /\ v' = v).
  { intros a w v w' v'. unfold defOf. destruct (teq a ASSIGN); simpl; [|tauto]. intros [E|[]]. inversion E; auto. }
  induction H as [eof|c cms ts eof rules tk defs HC HN HF IH|p w a t e ts eof v rules tk tk' defs HA HE HT HF IH
    |p w a t e c sw ts eof v rules tk tk' defs HA HE HT HS HF IH]; intros w' v' HI.
  - contradiction.
  - destruct (IH _ _ HI) as (p & c0 & K). exists p, c0. right; auto.
  - apply in_app_or in HI as [HI|HI].
    + apply HD in HI as [-> ->]. exists p, None. left; auto.
    + destruct (IH _ _ HI) as (p0 & c0 & K). exists p0, c0. right; auto.
  - apply in_app_or in HI as [HI|HI].
    + apply HD in HI as [-> ->]. exists p, (Some (commentOf c)). left; auto.
    + destruct (IH _ _ HI) as (p0 & c0 & K). exists p0, c0. right; auto.
Qed.

Lemma bound_defs : forall e df w, bound (e ++ df) w -> bound e w \/ exists v, In (w, v) df.
Proof.
  intros e df w H. unfold bound, names in *. rewrite map_app in H. apply in_app_or in H as [H|H]; auto.
  right. apply in_map_iff in H as ([k v] & E & HI). simpl in E. subst. eauto.
Qed.

Lemma bound_rules : forall rules df, Bound rules df -> forall w v, In (w, v) df ->
  exists i c, iName i = w /\ In (NRule zeroPos i v c) rules.
Proof.
  intros rules df H. induction H as [|n rules df H IH|i v c rules df H IH]; intros w' v' HI.
  - contradiction.
  - destruct (IH _ _ HI) as (i & c & E & K). exists i, c. simpl; auto.
  - destruct HI as [E|HI].
    + inversion E; subst. exists i, c. simpl; auto.
    + destruct (IH _ _ HI) as (i2 & c2 & E & K). exists i2, c2. simpl; auto.
Qed.

(** Lines. *)
Definition lineIn (s : bytes) (p : position) : Prop := 1 <= pLine p <= 1 + newlines s.

Lemma newlines_app : forall a b, newlines (a ++ b) = newlines a + newlines b.
Proof.
  induction a as [|c a IH]; intros b; cbn [newlines app]; [lia|]. rewrite IH. lia.
Qed.

Lemma newlines_pos : forall a, 0 <= newlines a.
Proof. induction a as [|c a IH]; cbn [newlines]; [lia|]. destruct (c =? 10); lia. Qed.

Lemma posAt_line : forall s k, lineIn s (posAt s k).
Proof.
  intros s k. unfold lineIn, posAt. cbn [pLine]. rewrite <- (firstn_skipn k s) at 3. rewrite newlines_app.
  pose proof (newlines_pos (firstn k s)). pose proof (newlines_pos (skipn k s)). lia.
Qed.

Lemma covers_at : forall s k ts k', covers s k ts k' -> Forall (fun t => exists j, tPos t = posAt s j) ts.
Proof. intros s k ts k' H. induction H; constructor; eauto. Qed.

Lemma stream_lines : forall s ts f k, covers s 0 ts k -> endOk s k f -> posOk (lineIn s) ts f.
Proof.
  intros s ts f k HC HE. split.
  - eapply Forall_impl; [|eapply covers_at; eauto]. intros t [j ->]. apply posAt_line.
  - intros HN. destruct f; [|congruence]. destruct HE as [-> _]. apply posAt_line.
Qed.

(** Every token of a source is one lexing step. *)
Lemma str_lexOne : forall X l ts f, Str X l ts f -> forall s k, St s l k ->
  Forall (fun t => exists suf text er, Good suf /\ lexOne X suf = Some (tTok t, text, tLit t, er)) ts.
Proof.
  intros X l ts f H. induction H as [l t l' ts f HS HE HR IH|l HS|l t HE HQ]; intros s k HSt; auto.
  pose proof (scan_step X s l k HSt) as Q. cbn zeta in Q.
  destruct (lexOne X (dropB isSpace (skipn k s))) as [[[[tk text] lit] er]|] eqn:E; [|congruence].
  destruct Q as (l2 & rest & Q1 & Q2 & Q3 & Q4 & _). rewrite HS in Q3. inversion Q3; subst.
  constructor; [|eapply IH; eauto]. exists (dropB isSpace (skipn k s)), text, er. split; auto.
  destruct HSt as [A G L Hk].
  destruct (skip_at s (loopFuel l) l _ _ A G (at_len _ _ _ _ A) L) as (l1 & _ & _ & G1 & _). exact G1.
Qed.

Lemma source_tokens : forall X s ts f, decodable s -> Str X (newLexer s) ts f ->
  Forall (fun t => exists suf text er, Good suf /\ lexOne X suf = Some (tTok t, text, tLit t, er)) ts.
Proof. intros X s ts f D H. eapply str_lexOne; eauto. apply newLexer_st; auto. Qed.

Lemma some4 : forall {A B C D} {a a' : A} {b b' : B} {c c' : C} {d d' : D},
  Some (a, b, c, d) = Some (a', b', c', d') -> a = a' /\ b = b' /\ c = c' /\ d = d'.
Proof. intros A B C D a a' b b' c c' d d' H. inversion H; auto. Qed.

Lemma lexDot_hd : forall X t, fst (lexDot X t) = INT -> hd 0 (snd (lexDot X t)) = 46.
Proof.
  intros X t. unfold lexDot. destruct (hd 0 t =? 46); [destruct (hd 0 (tl t) =? 46); discriminate|].
  destruct (uniIsLetter X (hdR t)); [reflexivity|discriminate].
Qed.

(** Integer numerals carry no sign. *)
Lemma lexOne_int : forall X suf text lit er, Good suf -> lexOne X suf = Some (INT, text, lit, er) ->
  hd 0 lit <> 43 /\ hd 0 lit <> 45.
Proof.
  intros X suf text lit er G H. destruct suf as [|b t]; [discriminate|]. unfold lexOne in H.
  destruct (isIdentifierStart b) eqn:EI.
  - apply some4 in H as (_ & _ & H & _). rewrite <- H. cbn [takeB]. destruct (isIdentifierBodyChar b); cbn [hd]; [|lia].
    split; intros ->; vm_compute in EI; discriminate.
  - destruct (isDigit b) eqn:ED.
    + destruct (lexNum X (b :: t)) as [tk a] eqn:EN. apply some4 in H as (_ & _ & H & _). rewrite <- H.
      destruct (lexNum_spec _ _ _ _ _ ED G EN) as (_ & _ & EH). rewrite EH.
      split; intros ->; vm_compute in ED; discriminate.
    + destruct (punct b) as [tk|] eqn:EP.
      { apply some4 in H as (H & _). subst tk. exfalso. revert EP. unfold punct.
        repeat match goal with |- context [if ?c then _ else _] => destruct c; [discriminate|] end. discriminate. }
      destruct (b =? 59); [apply some4 in H as (H & _); discriminate|].
      destruct (b =? 61); [destruct (hd 0 t =? 62); apply some4 in H as (H & _); discriminate|].
      destruct (b =? 47).
      { destruct (lexSlash t) as [tk a] eqn:E. apply some4 in H as (H & _). subst tk. unfold lexSlash in E.
        repeat match type of E with (if ?c then _ else _) = _ => destruct c end; discriminate. }
      destruct (b =? 46).
      { pose proof (lexDot_hd X t) as Q. destruct (lexDot X t) as [tk a]. apply some4 in H as (H & _ & H2 & _).
        cbn [fst snd] in Q. specialize (Q H). rewrite <- H2, Q. lia. }
      destruct (b =? 34); [|apply some4 in H as (H & _); discriminate].
      destruct (hd 0 (dropB inStr t) =? 34); [apply some4 in H as (H & _); discriminate|].
      destruct (takeB inStr t); [discriminate|apply some4 in H as (H & _); discriminate].
Qed.

(** Tokens of entries. *)
Definition plainTok (t : tokInfo) : Prop := ~ assignTok (tTok t).

Lemma atom_plain : forall X t nx n tk, Atom X t nx n tk -> plainTok t.
Proof.
  intros X t nx n tk H. unfold plainTok, assignTok. inversion H; subst; simpl;
    repeat match goal with H : _ \/ _ |- _ => destruct H; subst | H : floatTok _ |- _ => unfold floatTok in H; simpl in H end;
    try tauto; intuition congruence.
Qed.

Lemma infix_plain : forall op l t v n tk, Infix op l t v n tk -> plainTok op.
Proof.
  intros op l t v n tk H. unfold plainTok, assignTok. inversion H; subst;
    repeat match goal with H : _ \/ _ |- _ => destruct H end; try congruence;
    match goal with H : In (tTok _) _ |- _ => simpl in H; intuition congruence | _ => intuition congruence end.
Qed.

Lemma tagnum_plain : forall num nx a b, TagNum num nx a b -> Forall plainTok num.
Proof.
  intros num nx a b H. inversion H; subst; repeat constructor; unfold plainTok, assignTok; simpl; intuition congruence.
Qed.

Ltac plain1 := unfold plainTok, assignTok; intuition congruence.

Lemma grammar_plain : forall X,
  (forall u nx n tk, Entry X u nx n tk -> Forall plainTok u) /\
  (forall u nx n tk, Nud X u nx n tk -> Forall plainTok u) /\
  (forall lst l u nx n tk, Tail X lst l u nx n tk -> Forall plainTok u) /\
  (forall es c ns tk, Entries X es c ns tk -> Forall plainTok es).
Proof.
  intros X. apply grammar_ind; intros; repeat (apply Forall_app; split); repeat constructor; auto;
    try solve [plain1];
    try solve [eapply atom_plain; eauto]; try solve [eapply infix_plain; eauto]; try solve [eapply tagnum_plain; eauto].
  all: repeat match goal with
    | H : Forall _ (_ :: _) |- _ => inversion H; clear H; subst
    | H : _ /\ _ |- _ => destruct H
    | H : _ \/ _ |- _ => destruct H
    end; subst; repeat (apply Forall_app; split); repeat constructor; auto; try solve [plain1];
    try solve [eapply tagnum_plain; eauto]; try solve [eapply infix_plain; eauto].
  - eapply Forall_impl; [|exact H]. unfold commentTok. intros a E. plain1.
  - apply Forall_app; split; auto. rewrite H5. constructor; auto. plain1.
  - apply Forall_app; split; auto.
  - intros HA. match goal with H : trailing _ _ |- _ => destruct H as [HT _] end. unfold assignTok in HA. rewrite HT in HA. intuition discriminate.
  - intros HA. match goal with H : trailing _ _ |- _ => destruct H as [HT _] end. unfold assignTok in HA. rewrite HT in HA. intuition discriminate.
Qed.

(** The names in front of [=]. *)
Fixpoint defNames (ts : list tokInfo) : list bytes :=
  match ts with
  | t :: r =>
    match r with
    | a :: _ => if teq (tTok t) IDENT && teq (tTok a) ASSIGN then tLit t :: defNames r else defNames r
    | [] => []
    end
  | [] => []
  end.

Lemma defNames_cons : forall t r, plainTok (hd (mkTok EOF zeroPos []) r) -> defNames (t :: r) = defNames r.
Proof.
  intros t [|a r] H; auto. cbn [defNames]. fold (defNames (a :: r)).
  destruct (teq (tTok a) ASSIGN) eqn:E; [|now rewrite andb_false_r].
  apply teq_true in E. exfalso. apply H. left; exact E.
Qed.

Lemma defNames_app : forall e ts, Forall plainTok e -> plainTok (hd (mkTok EOF zeroPos []) ts) -> defNames (e ++ ts) = defNames ts.
Proof.
  induction e as [|t e IH]; intros ts HE HT; auto. inversion HE; subst. simpl app. rewrite defNames_cons; auto.
  destruct e; simpl; auto. inversion H2; auto.
Qed.

Lemma file_hd : forall X ts eof rules tk df, File X ts eof rules tk df -> plainTok (hd (mkTok EOF zeroPos []) ts).
Proof.
  intros X ts eof rules tk df H. unfold plainTok, assignTok.
  destruct H as [eof|c cms ts eof rules tk defs HC| |]; simpl; try (intuition congruence).
  inversion HC; subst. unfold commentTok in *. intuition congruence.
Qed.

Lemma defNames_rule : forall p w a e ts v, assignTok (tTok a) -> plainTok (hd (mkTok EOF zeroPos []) (e ++ ts)) ->
  defNames (mkTok IDENT p w :: a :: e ++ ts) = names (defOf (tTok a) w v) ++ defNames (e ++ ts).
Proof.
  intros p w a e ts v HA HP. assert (E : defNames (a :: e ++ ts) = defNames (e ++ ts)) by (apply defNames_cons; auto).
  change (defNames (mkTok IDENT p w :: a :: e ++ ts)) with
    (if teq IDENT IDENT && teq (tTok a) ASSIGN then w :: defNames (a :: e ++ ts) else defNames (a :: e ++ ts)).
  rewrite teq_refl, E. unfold defOf. cbn [andb]. destruct (teq (tTok a) ASSIGN); reflexivity.
Qed.

Lemma names_app : forall a b, names (a ++ b) = names a ++ names b.
Proof. intros. apply map_app. Qed.

Lemma file_defNames : forall X ts eof rules tk df, File X ts eof rules tk df -> defNames ts = names df.
Proof.
  intros X ts eof rules tk df H.
  induction H as [eof|c cms ts eof rules tk defs HC HN HF IH|p w a t e ts eof v rules tk tk' defs HA HE HT HF IH
    |p w a t e c sw ts eof v rules tk tk' defs HA HE HT HS HF IH].
  - reflexivity.
  - rewrite defNames_app; auto; [|eapply file_hd; eauto].
    eapply Forall_impl; [|exact HC]. unfold commentTok. intros x E. unfold plainTok, assignTok. rewrite E. intuition congruence.
  - pose proof (proj1 (grammar_plain X) _ _ _ _ HE) as HP. pose proof HP as HP'. inversion HP' as [|? ? HP1 HP2]; subst.
    rewrite names_app, <- IH, (defNames_rule p w a (t :: e) ts v); auto. f_equal.
    apply defNames_app; auto. eapply file_hd; eauto.
  - pose proof (proj1 (grammar_plain X) _ _ _ _ HE) as HP. pose proof HP as HP'. inversion HP' as [|? ? HP1 HP2]; subst.
    assert (HC : plainTok c) by (destruct HT as [E _]; unfold plainTok, assignTok; rewrite E; intuition congruence).
    rewrite names_app, <- IH, (defNames_rule p w a (t :: e) (c :: sw ++ ts) v); auto. f_equal.
    rewrite defNames_app; auto. pose proof (file_hd _ _ _ _ _ _ HF) as HH.
    assert (E2 : defNames (sw ++ ts) = defNames ts).
    { destruct HS as [HS|[-> _]]; auto. destruct sw as [|x [|y sw]]; try discriminate. simpl app. apply defNames_cons; auto. }
    rewrite <- E2. destruct (sw ++ ts) as [|x r]; [reflexivity|]. cbn [defNames].
    destruct HT as [E _]. rewrite E. reflexivity.
Qed.
