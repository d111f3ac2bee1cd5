(** Conversely, the parser accepts everything the grammar of ParseSpec.v derives,
    and returns the derived tree. *)
From Coq Require Import String.
From Verif Require Import Base Token Strconv Ext Lexer Ast Env Diag Parser ParseSpec ParseStream ParseFacts ParseSound ParseLoop ParseTop.
From Verif Require LexWords.
Open Scope string_scope.
Open Scope list_scope.
Open Scope Z_scope.

Section Complete.
  Context (X : Ext) (eof : tokInfo).
  Let F := FEof eof.

  (** [r] ends well: tree [n], now on the tokens [ts], new checks [tk]. *)
  Definition Done (r : pres) (n : node) (p : parser) (ts : list tokInfo) (tk : list task) : Prop :=
    exists p', r = Ok (n, None, p') /\ Toks X p' ts F /\ env p' = env p /\ perrors p' = perrors p /\ tasks p' = tasks p ++ tk.

  Lemma step : forall p t ts, Toks X p (t :: ts) F -> exists p', pnext X p = Ok p' /\ Toks X p' ts F /\ same p' p.
  Proof. intros p t ts H. destruct (pnext_eof _ _ _ _ H) as (p' & H1 & H2 & H3). eauto. Qed.

  Lemma peek : forall p t ts, Toks X p (t :: ts) F -> pk p = nextOf ts eof.
  Proof. intros p t ts H. rewrite (toks_pk _ _ _ _ _ H). destruct ts; reflexivity. Qed.

  Lemma copy : forall p2 p3 ts', Toks X p2 ts' F -> lx p3 = lx p2 -> cur p3 = cur p2 -> pk p3 = pk p2 -> Toks X p3 ts' F.
  Proof. intros p2 p3 ts' [H1 H2 H3 H4 H5 H6] E1 E2 E3. split; auto; congruence. Qed.

  Lemma nextOf_app : forall t (e rest : list tokInfo), nextOf ((t :: e) ++ rest) eof = t.
  Proof. reflexivity. Qed.

  Lemma beqr : forall a, beq a a = true.
  Proof. intros a. now apply LexWords.beq_eq. Qed.
  Lemma beqn : forall a b, a <> b -> beq a b = false.
  Proof. intros a b H. destruct (beq a b) eqn:E; auto. apply beq_true in E. congruence. Qed.

  Lemma isLit_yes : forall t w, In t [INT; UINT; NINT; FLOAT; FLOAT16; FLOAT32; FLOAT64] -> w <> tokenName t -> isLiteral t w = true.
  Proof. intros t w H1 H2. rewrite isLit_name, beqn; auto. Qed.
  Lemma isLit_no : forall t, In t [INT; UINT; NINT; FLOAT; FLOAT16; FLOAT32; FLOAT64] -> isLiteral t (tokenName t) = false.
  Proof. intros t H1. rewrite isLit_name, beqr; auto. Qed.

  Definition hide (P : Prop) := P.

  Lemma float_choose : forall t b, floatTok t -> (if teq t IDENT && b then Some NuIdentifier else nudFor t) = Some NuFloatType.
  Proof. intros t b H. unfold floatTok in H. simpl in H. intuition (subst; reflexivity). Qed.

  (** One-token entries. *)
  Lemma atom_run : forall pe fuel p t rest n tk, Toks X p (t :: rest) F -> Atom X t (tTok (nextOf rest eof)) n tk ->
    exists k, chooseNud p = Some k /\ Done (runNud X pe fuel k p) n p (t :: rest) tk.
  Proof.
    intros pe fuel p t rest n tk HT HA. pose proof (toks_cur _ _ _ _ _ HT) as HC.
    pose proof (peek _ _ _ HT) as HK.
    assert (HD : forall n, Done (Ok (n, None, p)) n p (t :: rest) []).
    { intros m. exists p. rewrite app_nil_r. auto. }
    unfold chooseNud, peekTok, curr. rewrite HC, HK. apply (fun x => x : hide _) in HC.
    inversion HA; subst; cbn [tTok];
      repeat match goal with H : _ \/ _ |- _ => destruct H; subst end;
      try match goal with H : floatTok ?t |- _ => assert (HFT : In t [INT; UINT; NINT; FLOAT; FLOAT16; FLOAT32; FLOAT64]) by (unfold floatTok in H; simpl in *; tauto) end;
      repeat match goal with H : _ \/ _ |- _ => destruct H; subst end; try contradiction; unfold hide in HC;
      try (eexists; split; [reflexivity|]; cbn [runNud]; unfold pos, curr, currLit; rewrite HC; cbn [tTok tPos tLit]; apply HD; fail).
    - eexists; split; [reflexivity|]. cbn [runNud]; unfold parseIdentifier, pos, curr, currLit; rewrite HC; apply HD.
    - eexists; split; [rewrite (proj2 (teq_false (tTok (nextOf rest eof)) COLON)) by auto; reflexivity|].
      cbn [runNud]; unfold parseNamedIdentifier, pos, curr, currLit; rewrite HC; cbn [tTok tPos tLit]. apply HD.
    - eexists; split; [rewrite (proj2 (teq_false (tTok (nextOf rest eof)) COLON)) by auto; reflexivity|].
      cbn [runNud]; unfold parseNamedIdentifier, pos, curr, currLit; rewrite HC; cbn [tTok tPos tLit].
      rewrite (proj2 (Z.eqb_neq c 36)) by auto. eexists; split; [reflexivity|]. split; [now apply toks_addTask|auto].
    - eexists; split; [reflexivity|]. cbn [runNud]; unfold parseBooleanLiteral, pos, curr, currLit; rewrite HC; cbn [tTok tPos tLit]. rewrite beqr. apply HD.
    - eexists; split; [reflexivity|]. cbn [runNud]; unfold parseBooleanLiteral, pos, curr, currLit; rewrite HC; cbn [tTok tPos tLit]. rewrite beqr. apply HD.
    - eexists; split; [reflexivity|]. cbn [runNud]; unfold parseBooleanLiteral, pos, curr, currLit; rewrite HC; cbn [tTok tPos tLit]. rewrite beqr. apply HD.
    - eexists; split; [reflexivity|]. cbn [runNud]; unfold parseBooleanLiteral, pos, curr, currLit; rewrite HC; cbn [tTok tPos tLit]. rewrite beqr. apply HD.
    - exists NuFloatType. split; [apply float_choose; auto|]. cbn [runNud]; unfold parseFloatType, parseFloatLiteral, parseUintType, parseUintLiteral, parseIntegerType, parseIntegerLiteral, pos, curr, currLit; rewrite HC; cbn [tTok tPos tLit].
      rewrite isLit_no by auto. apply HD.
    - exists NuFloatType. split; [apply float_choose; auto|]. cbn [runNud]; unfold parseFloatType, parseFloatLiteral, parseUintType, parseUintLiteral, parseIntegerType, parseIntegerLiteral, pos, curr, currLit; rewrite HC; cbn [tTok tPos tLit].
      rewrite isLit_yes by auto. match goal with H : _ = Some _ |- _ => rewrite H end. apply HD.
    - exists NuUintType. split; [reflexivity|]. cbn [runNud]; unfold parseFloatType, parseFloatLiteral, parseUintType, parseUintLiteral, parseIntegerType, parseIntegerLiteral, pos, curr, currLit; rewrite HC; cbn [tTok tPos tLit].
      change (str "uint") with (tokenName UINT). rewrite isLit_no by (simpl; auto). apply HD.
    - exists NuUintType. split; [reflexivity|]. cbn [runNud]; unfold parseFloatType, parseFloatLiteral, parseUintType, parseUintLiteral, parseIntegerType, parseIntegerLiteral, pos, curr, currLit; rewrite HC; cbn [tTok tPos tLit].
      rewrite isLit_yes by (simpl; auto). match goal with H : _ = inr _ |- _ => rewrite H end. apply HD.
    - exists NuIntegerType. split; [reflexivity|]. cbn [runNud]; unfold parseFloatType, parseFloatLiteral, parseUintType, parseUintLiteral, parseIntegerType, parseIntegerLiteral, pos, curr, currLit; rewrite HC; cbn [tTok tPos tLit].
      change (str "int") with (tokenName INT). rewrite isLit_no by (simpl; auto). apply HD.
    - exists NuIntegerType. split; [reflexivity|]. cbn [runNud]; unfold parseFloatType, parseFloatLiteral, parseUintType, parseUintLiteral, parseIntegerType, parseIntegerLiteral, pos, curr, currLit; rewrite HC; cbn [tTok tPos tLit].
      rewrite isLit_yes by (simpl; auto). match goal with H : _ = inr _ |- _ => rewrite H end. apply HD.
  Qed.

  (** Occurrence bounds. *)
  Lemma upper_run : forall p o t ts up, Toks X p (o :: t :: ts) F -> Upper t up ->
    exists p1, occUpper X p = Ok (inl (up, p1)) /\ Toks X p1 (t :: ts) F /\ same p1 p.
  Proof.
    intros p o t ts up HT HU. destruct (step _ _ _ HT) as (p1 & E1 & T1 & S1).
    pose proof (peek _ _ _ HT) as HK. unfold nextOf in HK; simpl in HK.
    pose proof (toks_cur _ _ _ _ _ T1) as HC1.
    unfold occUpper, peekTok, peekLit. rewrite HK, E1. clear HK. apply (fun x => x : hide _) in HC1.
    inversion HU; subst; unfold hide in HC1; cbn [tTok tLit].
    - rewrite teq_refl, isLit_yes by (simpl; auto). cbn [andb rbind]. unfold parseUintType, parseUintLiteral, curr, currLit, pos.
      rewrite HC1. cbn [tTok tLit tPos]. rewrite isLit_yes by (simpl; auto). rewrite H0. cbn [rbind]. eauto.
    - replace (teq (tTok t) INT && isLiteral (tTok t) (tLit t)) with false; [cbn [rbind]; eauto|].
      symmetry. apply andb_false_iff. destruct (teq (tTok t) INT) eqn:E; auto. right. apply teq_true in E. rewrite E.
      destruct (isLiteral INT (tLit t)) eqn:EL; auto. exfalso. apply H. split; auto.
      intros E'. change (str "int") with (tokenName INT) in E'. rewrite E', isLit_no in EL by (simpl; auto). discriminate.
  Qed.

  Lemma lower_run : forall l lo p, Lower l lo -> occLower l p = Ok (inl lo).
  Proof.
    intros l lo p H. inversion H; subst; simpl; auto. rewrite (proj2 (Z.ltb_ge v 0)) by lia. reflexivity.
  Qed.

  Lemma upper_pnext : forall p o t ts up p1, Toks X p (o :: t :: ts) F -> Upper t up -> pnext X p = Ok p1 -> occUpper X p = Ok (inl (up, p1)).
  Proof.
    intros p o t ts up p1 HT HU E1. destruct (upper_run _ _ _ _ _ HT HU) as (q & Q1 & Q2 & Q3). rewrite Q1.
    unfold occUpper in Q1. rewrite E1 in Q1. cbn [rbind] in Q1. destruct (_ && _); cbn [rbind] in Q1; [|congruence].
    unfold parseUintType in Q1. destruct (isLiteral _ _); [|cbn [rbind] in Q1; congruence].
    destruct (parseUintLiteral p1) as [u [d|]]; cbn [rbind] in Q1; congruence.
  Qed.

  (** Infix operators, given the run of the operand. *)
  Lemma infix_run : forall pe p p1 p2 op t ts l v m tk, Toks X p (op :: t :: ts) F -> Infix op l t v m tk ->
    pnext X p = Ok p1 -> peCurr pe p1 = Ok (v, None, p2) ->
    exists k p3, ledFor (tTok op) = Some k /\ runLed X pe k l p = Ok (m, None, p3) /\
      lx p3 = lx p2 /\ cur p3 = cur p2 /\ pk p3 = pk p2 /\ env p3 = env p2 /\ perrors p3 = perrors p2 /\ tasks p3 = tasks p2 ++ tk.
  Proof.
    intros pe p p1 p2 op t ts l v m tk HT HI E1 E2. pose proof (toks_cur _ _ _ _ _ HT) as HC.
    pose proof (peek _ _ _ HT) as HK. unfold nextOf in HK; simpl in HK.
    assert (HP : forall tk0 k n, runLed X pe k l p = Ok (n, None, match tk0 with Some x => addTask p2 x | None => p2 end) -> 
      ledFor (tTok op) = Some k -> n = m -> tk = match tk0 with Some x => [x] | None => [] end ->
      exists k p3, ledFor (tTok op) = Some k /\ runLed X pe k l p = Ok (m, None, p3) /\
      lx p3 = lx p2 /\ cur p3 = cur p2 /\ pk p3 = pk p2 /\ env p3 = env p2 /\ perrors p3 = perrors p2 /\ tasks p3 = tasks p2 ++ tk).
    { intros tk0 k n H1 H2 H3 H4. exists k, (match tk0 with Some x => addTask p2 x | None => p2 end). subst n tk.
      split; auto. split; auto. destruct tk0; repeat split; auto. simpl. now rewrite app_nil_r. }
    apply (fun x => x : hide _) in HC. apply (fun x => x : hide _) in HK.
    inversion HI; subst; unfold hide in *.
    - eapply (HP None LeChoice).
      + cbn [runLed]. unfold parseTypeChoice. rewrite E1. cbn [rbind]. rewrite E2. cbn [rbind]. reflexivity.
      + destruct H as [-> | ->]; reflexivity.
      + unfold pos, curr. now rewrite HC.
      + reflexivity.
    - eapply (HP None LeComparator).
      + cbn [runLed]. unfold parseComparatorOp. rewrite E1. cbn [rbind]. rewrite E2. cbn [rbind].
        simpl in H0. destruct H0 as [<- | [<- | [<- | []]]]; reflexivity.
      + simpl in H. intuition (match goal with H : _ = tTok _ |- _ => rewrite <- H end; reflexivity).
      + unfold pos, curr, currLit. now rewrite HC.
      + reflexivity.
    - eapply (HP None LeSize).
      + cbn [runLed]. unfold parseSizeOperator. rewrite E1. cbn [rbind]. rewrite E2. cbn [rbind].
        simpl in H0. destruct H0 as [<- | [<- | [<- | []]]]; reflexivity.
      + rewrite H; reflexivity.
      + unfold pos, curr, currLit. now rewrite HC, H.
      + reflexivity.
    - eapply (HP None LeRegexp).
      + cbn [runLed typeOf]. unfold parseRegexp. cbn [typeOf]. rewrite E1. cbn [rbind]. rewrite E2. cbn [rbind].
        unfold peekTok. rewrite HK. destruct H0 as [-> | ->]; reflexivity.
      + rewrite H; reflexivity.
      + unfold pos, curr, currLit. now rewrite HC, H.
      + reflexivity.
    - eapply (HP None LeBits).
      + cbn [runLed]. unfold parseBits. rewrite E1. cbn [rbind]. rewrite E2. cbn [rbind]. reflexivity.
      + rewrite H; reflexivity.
      + unfold pos, curr, currLit. now rewrite HC, H.
      + reflexivity.
    - eapply (HP None LeOccurrence).
      + cbn [runLed]. unfold parseOccurrence. rewrite (lower_run _ _ _ H0). cbn [rbind].
        rewrite (upper_pnext _ _ _ _ _ _ HT H1 E1). cbn [rbind]. rewrite E2. cbn [rbind]. reflexivity.
      + destruct H as [-> | ->]; reflexivity.
      + unfold pos, curr. now rewrite HC.
      + reflexivity.
    - eapply (HP (Some _) LeBound).
      + cbn [runLed parseBound]. unfold parseIdentBound. rewrite E1. cbn [rbind]. rewrite E2. cbn [rbind]. reflexivity.
      + destruct H as [-> | ->]; reflexivity.
      + unfold pos, curr. now rewrite HC.
      + unfold curr. now rewrite HC.
    - eapply (HP None LeBound).
      + cbn [runLed parseBound]. unfold parseLitBound. rewrite E1. cbn [rbind]. rewrite E2. cbn [rbind]. reflexivity.
      + destruct H as [-> | ->]; reflexivity.
      + unfold pos, curr. now rewrite HC.
      + reflexivity.
    - eapply (HP None LeBound).
      + cbn [runLed parseBound]. unfold parseLitBound. rewrite E1. cbn [rbind]. rewrite E2. cbn [rbind]. reflexivity.
      + destruct H as [-> | ->]; reflexivity.
      + unfold pos, curr. now rewrite HC.
      + reflexivity.
    - eapply (HP (Some _) LeBound).
      + cbn [runLed parseBound]. unfold parseLitBound. rewrite E1. cbn [rbind]. rewrite E2. cbn [rbind node_start node_end]. reflexivity.
      + destruct H as [-> | ->]; reflexivity.
      + unfold pos, curr. now rewrite HC.
      + reflexivity.
    - eapply (HP (Some _) LeBound).
      + cbn [runLed parseBound]. unfold parseLitBound. rewrite E1. cbn [rbind]. rewrite E2. cbn [rbind node_start node_end]. reflexivity.
      + destruct H as [-> | ->]; reflexivity.
      + unfold pos, curr. now rewrite HC.
      + reflexivity.
    - eapply (HP None LeBound).
      + cbn [runLed]. unfold parseBound, parseLitBound. rewrite E1. cbn [rbind]. rewrite E2. cbn [rbind].
        destruct l; try discriminate H0; destruct v; try discriminate H1; reflexivity.
      + destruct H as [-> | ->]; reflexivity.
      + unfold pos, curr. now rewrite HC.
      + reflexivity.
  Qed.

  (** Entries do not start with a closing bracket. *)
  Definition closer (t : token) : Prop := t = RPAREN \/ t = RBRACK \/ t = RBRACE.

  Lemma Nud_first : forall t u nx n tk, Nud X (t :: u) nx n tk -> ~ closer (tTok t).
  Proof.
    intros t u nx n tk H [E|[E|E]]; inversion H; subst; try congruence;
      match goal with H : Atom _ _ _ _ _ |- _ => inversion H; subst; simpl in E; try congruence end;
      unfold floatTok in *; simpl in *; intuition congruence.
  Qed.

  Lemma Entry_first : forall t u nx n tk, Entry X (t :: u) nx n tk -> ~ closer (tTok t).
  Proof.
    intros t u nx n tk H. inversion H as [cms t0 u0 tl ? ? ? ? ? HC HN HT E]; subst. destruct cms as [|c cms]; simpl in E; inversion E; subst.
    - eapply Nud_first; eauto.
    - inversion HC; subst. unfold commentTok in *. intros [E2|[E2|E2]]; congruence.
  Qed.

  (** Comments. *)
  Lemma comments_run : forall cms fuel acc p t rest, Toks X p (t :: cms ++ rest) F -> Forall commentTok cms ->
    tTok (nextOf rest eof) <> COMMENT -> (length cms <= fuel)%nat ->
    exists p', commentLoop X fuel acc p = Ok (acc ++ map commentOf cms, p') /\ Toks X p' (lastOf cms t :: rest) F /\ same p' p.
  Proof.
    induction cms as [|c cms IH]; intros fuel acc p t rest HT HF HN HL.
    - exists p. simpl in HT. pose proof (peek _ _ _ HT) as HK. rewrite app_nil_r. split; [|split; [auto|apply same_refl]].
      unfold commentLoop. destruct fuel; unfold peekTok; rewrite HK, (proj2 (teq_false _ _) HN); reflexivity.
    - simpl in HL. destruct fuel as [|fuel]; [lia|]. inversion HF as [|? ? HC HF']; subst.
      pose proof (peek _ _ _ HT) as HK. unfold nextOf in HK; simpl in HK.
      destruct (step _ _ _ HT) as (p1 & E1 & T1 & S1).
      destruct (IH fuel (acc ++ [parseInnerComment p1]) p1 c rest T1 HF' HN ltac:(lia)) as (p2 & E2 & T2 & S2).
      exists p2. split; [|split; [rewrite lastOf_cons; exact T2|eapply same_trans; eauto]].
      simpl. unfold peekTok. rewrite HK. rewrite HC, teq_refl, E1. cbn [rbind]. rewrite E2, <- app_assoc. simpl.
      unfold parseInnerComment, pos, currLit. now rewrite (toks_cur _ _ _ _ _ T1).
  Qed.

  Lemma skip_run : forall cms fuel p rest, Toks X p (cms ++ rest) F -> Forall commentTok cms ->
    tTok (nextOf rest eof) <> COMMENT -> (length cms <= fuel)%nat ->
    exists p', skipComments X fuel p = Ok p' /\ Toks X p' rest F /\ same p' p.
  Proof.
    intros [|c cms] fuel p rest HT HF HN HL; unfold skipComments.
    - exists p. simpl in HT. assert (curr p <> COMMENT).
      { unfold curr. rewrite (tk_cur _ _ _ _ HT). unfold nextOf in HN. destruct rest; exact HN. }
      rewrite (proj2 (teq_false _ _) H). split; auto. split; auto. apply same_refl.
    - inversion HF as [|? ? HC HF']; subst. simpl in HT. unfold curr at 1. rewrite (toks_cur _ _ _ _ _ HT), HC, teq_refl.
      unfold parseComment. simpl in HL.
      destruct (comments_run cms fuel [parseInnerComment p] p c rest HT HF' HN ltac:(lia)) as (p1 & E1 & T1 & S1).
      rewrite E1. cbn [rbind]. destruct (step _ _ _ T1) as (p2 & E2 & T2 & S2).
      exists p2. destruct ([parseInnerComment p] ++ map commentOf cms) as [|x [|y l]]; cbn [rbind]; (split; [auto|split; auto; eapply same_trans; eauto]).
  Qed.

  (** An operand right after one [next]. *)
  Lemma sub_run : forall e nx v tk,
    (forall g prec p rest, Toks X p (e ++ rest) F -> nextOf rest eof = nx -> (length (e ++ rest) < g)%nat ->
       prec = 0 \/ prec = precedence (curr p) ->
       forall t r, e = t :: r -> Done (parseEntry X g prec p) v p (lastOf r t :: rest) tk) ->
    forall g p o rest t r, Toks X p (o :: e ++ rest) F -> nextOf rest eof = nx -> (length (e ++ rest) < g)%nat -> e = t :: r ->
    exists p1 p2, pnext X p = Ok p1 /\ Toks X p1 (e ++ rest) F /\ peCurr (parseEntry X g) p1 = Ok (v, None, p2) /\
      Toks X p2 (lastOf r t :: rest) F /\ env p2 = env p /\ perrors p2 = perrors p /\ tasks p2 = tasks p ++ tk.
  Proof.
    intros e nx v tk H g p o rest t r HT HN HL E. destruct (step _ _ _ HT) as (p1 & E1 & T1 & S1).
    destruct (H g (precedence (curr p1)) p1 rest T1 HN HL (or_intror eq_refl) t r E) as (p2 & E2 & T2 & K1 & K2 & K3).
    unsame. exists p1, p2. split_all; auto; congruence.
  Qed.

  Lemma tag_run : forall num nx major number, TagNum num nx major number ->
    forall p o rest, Toks X p (o :: num ++ rest) F -> nx = tTok (nextOf rest eof) ->
    exists p', parseTagHead X p = Ok (inl (major, number, p')) /\ Toks X p' (lastOf num o :: rest) F /\ same p' p.
  Proof.
    intros num nx major number HG p o rest HT HN. pose proof (peek _ _ _ HT) as HK. unfold parseTagHead, peekTok. rewrite HK.
    inversion HG; subst.
    - simpl in HT. simpl app. destruct (tTok (nextOf rest eof)) eqn:E; try congruence;
        (exists p; split; [reflexivity|split; [exact HT|apply same_refl]]).
    - unfold nextOf; simpl. destruct (step _ _ _ HT) as (p1 & E1 & T1 & S1). rewrite E1. cbn [rbind].
      unfold currLit. rewrite (toks_cur _ _ _ _ _ T1). cbn [tLit]. rewrite H. eauto.
    - unfold nextOf; simpl. destruct (step _ _ _ HT) as (p1 & E1 & T1 & S1). rewrite E1. cbn [rbind].
      unfold parseFloatTag, currLit, pos, curr. rewrite (toks_cur _ _ _ _ _ T1). cbn [tLit tPos tTok].
      assert (HS : splitDot (a ++ 46 :: b) = [a; b]) by (apply splitDot_two; auto). rewrite HS, H1, H2. eauto.
  Qed.

  Lemma key_run : forall op l i, Key op l i ->
    match l with NIdentifier i => Some i | NIntegerLiteral _ _ v => Some (mkIdent (tPos op) (fmtD v)) | _ => None end = Some i.
  Proof. intros op l i H. inversion H; subst; reflexivity. Qed.

  Lemma prefix_run : forall (mk : parser -> node -> node) (bad : parser -> node -> parser -> node) e nx v tk,
    (forall g prec p rest, Toks X p (e ++ rest) F -> nextOf rest eof = nx -> (length (e ++ rest) < g)%nat ->
       prec = 0 \/ prec = precedence (curr p) ->
       forall t r, e = t :: r -> Done (parseEntry X g prec p) v p (lastOf r t :: rest) tk) ->
    e <> [] ->
    forall g p o rest, Toks X p (o :: e ++ rest) F -> nextOf rest eof = nx -> (length (e ++ rest) < g)%nat ->
    Done (p1 <- pnext X p;; '(item, d, p2) <- peCurr (parseEntry X g) p1;;
          match d with Some _ => Ok (bad p item p2, d, p2) | None => Ok (mk p item, None, p2) end)
      (mk p v) p (lastOf e o :: rest) tk.
  Proof.
    intros mk bad e nx v tk H NE g p o rest HT HN HL. destruct e as [|t r]; [congruence|].
    destruct (sub_run (t :: r) nx v tk H g p o rest t r HT HN HL eq_refl) as (p1 & p2 & E1 & T1 & E2 & T2 & K1 & K2 & K3).
    rewrite E1. cbn [rbind]. rewrite E2. cbn [rbind]. exists p2. rewrite lastOf_cons. auto.
  Qed.

  Lemma complete :
    (forall u nx n tk, Entry X u nx n tk -> forall g prec p rest, Toks X p (u ++ rest) F -> nextOf rest eof = nx -> (length (u ++ rest) < g)%nat ->
       prec = 0 \/ prec = precedence (curr p) ->
       forall t r, u = t :: r -> Done (parseEntry X g prec p) n p (lastOf r t :: rest) tk) /\
    (forall u nx n tk, Nud X u nx n tk -> forall g p rest, Toks X p (u ++ rest) F -> nextOf rest eof = nx -> (length (u ++ rest) <= g)%nat ->
       forall t r, u = t :: r -> exists k, chooseNud p = Some k /\ Done (runNud X (parseEntry X g) g k p) n p (lastOf r t :: rest) tk) /\
    (forall lst l u nx n tk, Tail X lst l u nx n tk -> forall g fuel p rest, Toks X p (lst :: u ++ rest) F -> nextOf rest eof = nx ->
       (length (u ++ rest) <= g)%nat -> (length (u ++ rest) < fuel)%nat ->
       Done (ledLoop X (parseEntry X g) fuel 0 l p) n p (lastOf u lst :: rest) tk) /\
    (forall es c ns tk, Entries X es c ns tk -> forall g fuel p rest keep acc, closer (tTok c) -> Toks X p (es ++ c :: rest) F ->
       (length (es ++ c :: rest) < g)%nat -> (length (es ++ c :: rest) < fuel)%nat ->
       exists p', bracketLoop X (parseEntry X g) (tTok c) keep fuel acc p = Ok (acc ++ filter keep ns, None, p') /\
         Toks X p' (c :: rest) F /\ env p' = env p /\ perrors p' = perrors p /\ tasks p' = tasks p ++ tk).
  Proof.
    apply grammar_ind.
    - (* E_intro *)
      intros cms t u tl nx n tk m tk' HC HN IN HT IT g prec p rest HTk HNx HL HPr t1 r E1.
      destruct g as [|g]; [lia|]. rewrite <- !app_assoc in HTk. rewrite !app_length in HL. simpl in HL.
      destruct (skip_run cms g p _ HTk HC) as (p1 & Q1 & T1 & S1).
      { unfold nextOf; simpl. eapply Nud_over; eauto. }
      { lia. }
      simpl parseEntry. rewrite Q1. cbn [rbind].
      destruct (IN g p1 (tl ++ rest) T1) with (t := t) (r := u) as (k & Q2 & p2 & Q3 & T2 & K1 & K2 & K3); auto.
      { unfold nextOf in *. destruct tl; auto. }
      { rewrite !app_length. simpl. lia. }
      rewrite Q2, Q3. cbn [rbind].
      destruct (IT g g p2 rest T2 HNx) as (p3 & Q4 & T3 & K4 & K5 & K6); try (rewrite app_length; lia).
      assert (HLL : ledLoop X (parseEntry X g) g prec n p2 = ledLoop X (parseEntry X g) g 0 n p2).
      { destruct (Z.eq_dec prec 0) as [->|NZ]; auto.
        destruct (Nud_over _ _ _ _ _ _ HN) as (N1 & N2).
        assert (cms = []) as ->.
        { destruct HPr as [|HPr]; [congruence|]. destruct cms as [|c cms]; auto. inversion HC; subst.
          unfold curr in NZ. simpl in HTk. rewrite (toks_cur _ _ _ _ _ HTk) in NZ. unfold commentTok in *.
          match goal with H : tTok c = COMMENT |- _ => rewrite H in NZ end. exfalso; apply NZ; reflexivity. }
        assert (HCp : cur p = t) by (simpl in HTk; eapply toks_cur; eauto).
        destruct HPr as [|HPr]; [congruence|]. unfold curr in HPr. rewrite HCp in HPr.
        destruct N2 as [N2|N2]; [congruence|].
        assert (HO : over (curr p2) (peekTok p2)).
        { unfold curr, peekTok. rewrite (toks_cur _ _ _ _ _ T2), (peek _ _ _ T2). unfold nextOf in *. destruct tl; simpl in *; [rewrite HNx|]; exact N2. }
        rewrite !ledLoop_over; auto; try lia. rewrite HPr. clear. destruct (tTok t); cbv; discriminate. }
      rewrite HLL, Q4. exists p3. split; auto. unsame. split.
      + replace (lastOf r t1) with (lastOf tl (lastOf u t)); auto.
        destruct cms as [|c cms]; simpl in E1; inversion E1; subst.
        * now rewrite lastOf_app2.
        * rewrite lastOf_app2, lastOf_cons, lastOf_app2. reflexivity.
      + split; [congruence|]. split; [congruence|]. rewrite K6, K3, app_assoc. congruence.
    - (* N_atom *)
      intros t nx n tk HA g p rest HTk HNx HL t1 r E. inversion E; subst. eapply atom_run; eauto.
    - (* N_group *)
      intros o c es nx ns tk Ho Hc HE IE g p rest HTk HNx HL t1 r E. inversion E; subst.
      exists NuGroup. split; [unfold chooseNud, curr; rewrite (toks_cur _ _ _ _ _ HTk), Ho; reflexivity|].
      simpl in HTk. rewrite <- app_assoc in HTk. simpl in HTk. destruct (step _ _ _ HTk) as (p1 & E1 & T1 & S1).
      simpl in HL. rewrite <- app_assoc in HL. simpl in HL.
      destruct (IE g g p1 rest isGroupEntry []) as (p2 & E2 & T2 & K1 & K2 & K3); auto; [left; auto|].
      cbn [runNud]. unfold parseGroup. rewrite E1. cbn [rbind]. rewrite Hc in E2. rewrite E2. cbn [rbind]. exists p2.
      unfold pos. rewrite (toks_cur _ _ _ _ _ HTk), lastOf_snoc. unsame. split; auto. split; auto. split_all; congruence.
    - (* N_array *)
      intros o c es nx ns tk Ho Hc HE IE g p rest HTk HNx HL t1 r E. inversion E; subst.
      exists NuArray. split; [unfold chooseNud, curr; rewrite (toks_cur _ _ _ _ _ HTk), Ho; reflexivity|].
      simpl in HTk. rewrite <- app_assoc in HTk. simpl in HTk. destruct (step _ _ _ HTk) as (p1 & E1 & T1 & S1).
      simpl in HL. rewrite <- app_assoc in HL. simpl in HL.
      destruct (IE g g p1 rest isGroupEntry []) as (p2 & E2 & T2 & K1 & K2 & K3); auto; [right; left; auto|].
      cbn [runNud]. unfold parseArray. rewrite E1. cbn [rbind]. rewrite Hc in E2. rewrite E2. cbn [rbind]. exists p2.
      unfold pos. rewrite (toks_cur _ _ _ _ _ HTk), lastOf_snoc. unsame. split; auto. split; auto. split_all; congruence.
    - (* N_map *)
      intros o c es nx ns tk Ho Hc HE IE g p rest HTk HNx HL t1 r E. inversion E; subst.
      exists NuMap. split; [unfold chooseNud, curr; rewrite (toks_cur _ _ _ _ _ HTk), Ho; reflexivity|].
      simpl in HTk. rewrite <- app_assoc in HTk. simpl in HTk. destruct (step _ _ _ HTk) as (p1 & E1 & T1 & S1).
      simpl in HL. rewrite <- app_assoc in HL. simpl in HL.
      destruct (IE g g p1 rest notNil []) as (p2 & E2 & T2 & K1 & K2 & K3); auto; [right; right; auto|].
      rewrite filter_notNil in E2 by (eapply (proj2 (proj2 (proj2 (grammar_shape X)))); eauto).
      cbn [runNud]. unfold parseMap. rewrite E1. cbn [rbind]. rewrite Hc in E2. rewrite E2. cbn [rbind]. exists p2.
      unfold pos. rewrite (toks_cur _ _ _ _ _ HTk), lastOf_snoc. unsame. split; auto. split; auto. split_all; congruence.
    - (* N_optional *)
      intros o e nx n tk Ho HE IE g p rest HTk HNx HL t1 r E. inversion E; subst t1 r.
      pose proof (toks_cur _ _ _ _ _ HTk) as HC. simpl in HL.
      exists NuOptional. split; [unfold chooseNud, curr; rewrite HC, Ho; reflexivity|].
      cbn [runNud]. unfold parseOptional.
      pose proof (prefix_run (fun p i => NOptional (pos p) (curr p) i) (fun p i p2 => i) e nx n tk IE (Entry_ne _ _ _ _ _ HE) g p o rest HTk HNx ltac:(lia)) as HD.
      cbn beta in HD. unfold pos, curr in HD. rewrite HC, Ho in HD. unfold pos, curr. rewrite HC, Ho. exact HD.
    - (* N_unwrap *)
      intros o e nx n tk Ho HE IE g p rest HTk HNx HL t1 r E. inversion E; subst t1 r.
      pose proof (toks_cur _ _ _ _ _ HTk) as HC. simpl in HL.
      exists NuUnwrap. split; [unfold chooseNud, curr; rewrite HC, Ho; reflexivity|].
      cbn [runNud]. unfold parseUnwrap.
      pose proof (prefix_run (fun p i => NUnwrap (pos p) (curr p) i) (fun p i p2 => i) e nx n tk IE (Entry_ne _ _ _ _ _ HE) g p o rest HTk HNx ltac:(lia)) as HD.
      cbn beta in HD. unfold pos, curr in HD. rewrite HC, Ho in HD. unfold pos, curr. rewrite HC, Ho. exact HD.
    - (* N_enum *)
      intros o e nx n tk Ho HE IE g p rest HTk HNx HL t1 r E. inversion E; subst t1 r.
      pose proof (toks_cur _ _ _ _ _ HTk) as HC. simpl in HL.
      exists NuEnumeration. split; [unfold chooseNud, curr; rewrite HC, Ho; reflexivity|].
      cbn [runNud]. unfold parseEnumeration.
      pose proof (prefix_run (fun p i => NEnumeration (pos p) (curr p) i) (fun p i p2 => NEnumeration (pos p) (curr p) (NBadNode zeroPos ILLEGAL i zeroPos)) e nx n tk IE (Entry_ne _ _ _ _ _ HE) g p o rest HTk HNx ltac:(lia)) as HD.
      cbn beta in HD. unfold pos, curr in HD. rewrite HC, Ho in HD. unfold pos, curr. rewrite HC, Ho. exact HD.
    - (* N_star *)
      intros o t e nx n up tk Ho HU HE IE g p rest HTk HNx HL t1 r E. inversion E; subst t1 r.
      pose proof (toks_cur _ _ _ _ _ HTk) as HC. simpl in HL.
      exists NuZMOccurrence. split; [unfold chooseNud, curr; rewrite HC, Ho; reflexivity|].
      cbn [runNud]. unfold parsePrefixOccurrence, parseOccurrence. cbn [occLower rbind].
      destruct (sub_run (t :: e) nx n tk IE g p o rest t e HTk HNx ltac:(simpl; lia) eq_refl) as (p1 & p2 & E1 & T1 & E2 & T2 & K1 & K2 & K3).
      rewrite (upper_pnext _ _ _ _ _ _ HTk HU E1). cbn [rbind]. rewrite E2. cbn [rbind].
      exists p2. unfold pos, curr. rewrite HC, Ho, lastOf_cons. auto.
    - (* N_plus *)
      intros o t e nx n up tk Ho HU HE IE g p rest HTk HNx HL t1 r E. inversion E; subst t1 r.
      pose proof (toks_cur _ _ _ _ _ HTk) as HC. simpl in HL.
      exists NuOMOccurrence. split; [unfold chooseNud, curr; rewrite HC, Ho; reflexivity|].
      cbn [runNud]. unfold parsePrefixOccurrence, parseOccurrence. cbn [occLower rbind].
      destruct (sub_run (t :: e) nx n tk IE g p o rest t e HTk HNx ltac:(simpl; lia) eq_refl) as (p1 & p2 & E1 & T1 & E2 & T2 & K1 & K2 & K3).
      rewrite (upper_pnext _ _ _ _ _ _ HTk HU E1). cbn [rbind]. rewrite E2. cbn [rbind].
      exists p2. unfold pos, curr. rewrite HC, Ho, lastOf_cons. auto.
    - (* N_tag *)
      intros o num nx major number Ho HLp HG g p rest HTk HNx HL t1 r E. inversion E; subst t1 r.
      pose proof (toks_cur _ _ _ _ _ HTk) as HC.
      exists NuTag. split; [unfold chooseNud, curr; rewrite HC, Ho; reflexivity|].
      cbn [runNud]. unfold parseTag. simpl in HTk.
      destruct (tag_run _ _ _ _ HG p o rest HTk) as (p1 & E1 & T1 & S1); [congruence|]. rewrite E1. cbn [rbind].
      unfold peekTok. rewrite (peek _ _ _ T1), HNx, (proj2 (teq_false _ _) HLp). unfold pos, curr. rewrite HC, Ho. unsame.
      exists p1. rewrite app_nil_r. auto.
    - (* N_tagged *)
      intros o num lp e nx nx' close major number n tk Ho Hlp HG HNx' HE IE HCl g p rest HTk HNx HL t1 r E. inversion E; subst t1 r.
      pose proof (toks_cur _ _ _ _ _ HTk) as HC.
      exists NuTag. split; [unfold chooseNud, curr; rewrite HC, Ho; reflexivity|].
      cbn [runNud]. unfold parseTag.
      replace ((o :: num ++ lp :: e ++ close) ++ rest) with (o :: num ++ lp :: e ++ close ++ rest) in HTk, HL
        by (simpl; rewrite <- !app_assoc; simpl; now rewrite <- app_assoc).
      destruct (tag_run _ _ _ _ HG p o (lp :: e ++ close ++ rest) HTk) as (p1 & E1 & T1 & S1); [unfold nextOf; simpl; congruence|].
      rewrite E1. cbn [rbind]. unfold peekTok at 1. rewrite (peek _ _ _ T1). unfold nextOf at 1; simpl hd. rewrite Hlp, teq_refl.
      destruct (step _ _ _ T1) as (p2 & E2 & T2 & S2). rewrite E2. cbn [rbind].
      simpl in HL. rewrite !app_length in HL. simpl in HL. rewrite !app_length in HL.
      destruct e as [|te re]; [exfalso; eapply Entry_ne; eauto|].
      destruct (sub_run (te :: re) nx' n tk IE g p2 lp (close ++ rest) te re T2) as (p3 & p4 & E3 & T3 & E4 & T4 & K1 & K2 & K3); auto.
      { rewrite HNx'. unfold nextOf in *. destruct close; auto. }
      { rewrite !app_length. lia. }
      rewrite E3. cbn [rbind]. rewrite E4. cbn [rbind]. unfold expectPeek, peekTok. rewrite (peek _ _ _ T4).
      unfold pos, curr. rewrite HC, Ho. unsame.
      destruct HCl as [[-> HR]|[-> HR]].
      + simpl app in *. unfold nextOf; simpl hd. rewrite HR, teq_refl.
        destruct (step _ _ _ T4) as (p5 & E5 & T5 & S5). rewrite E5. cbn [rbind]. exists p5. unsame.
        split; auto. split; [|split_all; congruence].
        replace (lastOf (num ++ lp :: te :: re ++ [nx']) o) with nx'; auto.
        rewrite lastOf_app2, !lastOf_cons, lastOf_snoc. reflexivity.
      + simpl app in *. unfold nextOf in HNx', HNx. simpl in HNx'. subst nx'. unfold nextOf. rewrite HNx, (proj2 (teq_false _ _) HR). cbn [rbind].
        exists p4. split; auto. split; [|split_all; congruence].
        replace (lastOf (num ++ lp :: te :: re ++ []) o) with (lastOf re te); auto.
        rewrite app_nil_r, lastOf_app2, !lastOf_cons. reflexivity.
    - (* T_end *)
      intros lst l nx HO g fuel p rest HTk HNx HL1 HL2. rewrite ledLoop_over; try lia.
      + exists p. rewrite app_nil_r. auto.
      + simpl in HTk. unfold curr, peekTok. rewrite (toks_cur _ _ _ _ _ HTk), (peek _ _ _ HTk), HNx. exact HO.
    - (* T_comma *)
      intros lst l c nx HLst HCm g fuel p rest HTk HNx HL1 HL2. destruct fuel as [|fuel]; [lia|].
      simpl ledLoop. unfold curr at 1, peekTok. simpl in HTk. rewrite (toks_cur _ _ _ _ _ HTk), (peek _ _ _ HTk). unfold nextOf; simpl hd.
      rewrite (proj2 (teq_false _ _) HLst), HCm. cbn [negb andb Z.ltb precedence]. 
      change (0 <? precedence COMMA) with true. cbn [ledFor].
      destruct (step _ _ _ HTk) as (p1 & E1 & T1 & S1). rewrite E1. cbn [rbind runLed parseComma].
      rewrite ledLoop_over; try lia.
      + exists p1. rewrite app_nil_r. unsame. auto.
      + left. unfold curr. rewrite (toks_cur _ _ _ _ _ T1). exact HCm.
    - (* T_infix *)
      intros lst l op t e nx v m tk tk' HLst HE IE HI g fuel p rest HTk HNx HL1 HL2. destruct fuel as [|fuel]; [lia|].
      simpl ledLoop. unfold curr at 1, peekTok. simpl in HTk, HL1, HL2. rewrite (toks_cur _ _ _ _ _ HTk), (peek _ _ _ HTk). unfold nextOf; simpl hd.
      pose proof (infix_infixTok _ _ _ _ _ _ HI) as HIn. apply infix_led_iff in HIn as [HIn1 HIn2].
      rewrite (proj2 (teq_false _ _) HLst), HIn1. cbn [negb andb].
      destruct (step _ _ _ HTk) as (p1 & E1 & T1 & S1).
      destruct (sub_run (t :: e) nx v tk IE g p1 op rest t e T1 HNx ltac:(simpl; lia) eq_refl) as (p2 & p3 & E2 & T2 & E3 & T3 & K1 & K2 & K3).
      destruct (infix_run (parseEntry X g) p1 p2 p3 op t (e ++ rest) l v m tk' T1 HI E2 E3) as (k & p4 & Hk & HR & J1 & J2 & J3 & J4 & J5 & J6).
      rewrite Hk, E1. cbn [rbind]. rewrite HR. cbn [rbind].
      pose proof (copy _ _ _ T3 J1 J2 J3) as T4. rewrite ledLoop_over; try lia.
      + exists p4. unsame. rewrite !lastOf_cons. split; auto. split; auto. split; [congruence|]. split; [congruence|].
        rewrite J6, K3, app_assoc. congruence.
      + unfold curr, peekTok. rewrite (toks_cur _ _ _ _ _ T4), (peek _ _ _ T4), HNx. eapply Entry_over; eauto.
    - (* T_member *)
      intros lst l op t e nx i v tk HLst Hop HKey HE IE HTr g fuel p rest HTk HNx HL1 HL2. destruct fuel as [|fuel]; [lia|].
      simpl ledLoop. unfold curr at 1, peekTok at 1 2. simpl in HTk, HL1, HL2. rewrite (toks_cur _ _ _ _ _ HTk), (peek _ _ _ HTk). unfold nextOf; simpl hd.
      rewrite (proj2 (teq_false _ _) HLst). cbn [negb andb].
      replace (0 <? precedence (tTok op)) with true by (destruct Hop as [-> | ->]; reflexivity).
      replace (ledFor (tTok op)) with (Some LeColon) by (destruct Hop as [-> | ->]; reflexivity).
      destruct (step _ _ _ HTk) as (p1 & E1 & T1 & S1). rewrite E1. cbn [rbind runLed].
      destruct (sub_run (t :: e) nx v tk IE g p1 op rest t e T1 HNx ltac:(simpl; lia) eq_refl) as (p2 & p3 & E2 & T2 & E3 & T3 & K1 & K2 & K3).
      unfold parseColon. unfold pos at 1. rewrite (toks_cur _ _ _ _ _ T1), (key_run _ _ _ HKey), E2. cbn [rbind]. rewrite E3. cbn [rbind].
      unfold entryTrailing.
      assert (HF : teq (peekTok p3) COMMENT && isSameLineTokens (pos p3) (peekPos p3) = false).
      { apply not_true_iff_false. intros EQ. apply andb_true_iff in EQ as [A1 A2]. apply HTr. apply teq_true in A1.
        unfold peekTok in A1. unfold isSameLineTokens, pos, peekPos in A2. rewrite (peek _ _ _ T3), HNx in *.
        rewrite (toks_cur _ _ _ _ _ T3) in A2. split; auto. lia. }
      rewrite HF. cbn [rbind]. rewrite ledLoop_over; try lia.
      + exists p3. unfold pos. rewrite (toks_cur _ _ _ _ _ T1), !lastOf_cons. unsame. split; auto. split; auto. split_all; congruence.
      + unfold curr, peekTok. rewrite (toks_cur _ _ _ _ _ T3), (peek _ _ _ T3), HNx. eapply Entry_over; eauto.
    - (* T_memberComment *)
      intros lst l op t e c tl nx i v m tk tk' HLst Hop HKey HE IE HTr HT IT g fuel p rest HTk HNx HL1 HL2. destruct fuel as [|fuel]; [lia|].
      simpl ledLoop. unfold curr at 1, peekTok at 1 2.
      replace ((op :: t :: e ++ c :: tl) ++ rest) with (op :: (t :: e) ++ c :: tl ++ rest) in HTk, HL1, HL2 by (simpl; now rewrite <- app_assoc).
      rewrite (toks_cur _ _ _ _ _ HTk), (peek _ _ _ HTk). unfold nextOf; simpl hd.
      rewrite (proj2 (teq_false _ _) HLst). cbn [negb andb].
      replace (0 <? precedence (tTok op)) with true by (destruct Hop as [-> | ->]; reflexivity).
      replace (ledFor (tTok op)) with (Some LeColon) by (destruct Hop as [-> | ->]; reflexivity).
      destruct (step _ _ _ HTk) as (p1 & E1 & T1 & S1). rewrite E1. cbn [rbind runLed].
      destruct (sub_run (t :: e) c v tk IE g p1 op (c :: tl ++ rest) t e T1 eq_refl ltac:(simpl in *; lia) eq_refl) as (p2 & p3 & E2 & T2 & E3 & T3 & K1 & K2 & K3).
      unfold parseColon. unfold pos at 1. rewrite (toks_cur _ _ _ _ _ T1), (key_run _ _ _ HKey), E2. cbn [rbind]. rewrite E3. cbn [rbind].
      unfold entryTrailing.
      assert (HF : teq (peekTok p3) COMMENT && isSameLineTokens (pos p3) (peekPos p3) = true).
      { destruct HTr as [A1 A2]. unfold peekTok, isSameLineTokens, pos, peekPos. rewrite (peek _ _ _ T3), (toks_cur _ _ _ _ _ T3).
        unfold nextOf; simpl. rewrite A1, A2, teq_refl, Z.eqb_refl. reflexivity. }
      rewrite HF. destruct (step _ _ _ T3) as (p4 & E4 & T4 & S4). rewrite E4. cbn [rbind].
      replace (parseInnerComment p4) with (commentOf c) by (unfold parseInnerComment, commentOf, pos, currLit; now rewrite (toks_cur _ _ _ _ _ T4)).
      unfold pos. rewrite (toks_cur _ _ _ _ _ T1). simpl in HL1, HL2. rewrite app_length in HL1, HL2. simpl in HL1, HL2.
      destruct (IT g fuel p4 rest T4 HNx ltac:(lia) ltac:(lia)) as (p5 & E5 & T5 & J1 & J2 & J3). rewrite E5. exists p5.
      split; auto. unsame. split; [|split; [congruence|split; [congruence|rewrite J3, app_assoc; congruence]]].
      replace (lastOf (op :: t :: e ++ c :: tl) lst) with (lastOf tl c); auto.
      now rewrite !lastOf_cons, lastOf_app.
    - (* T_noBound *)
      intros lst l op tl nx m tk HLst Hop HB HT IT g fuel p rest HTk HNx HL1 HL2. destruct fuel as [|fuel]; [lia|].
      simpl ledLoop. unfold curr at 1, peekTok at 1 2. simpl in HTk, HL1, HL2. rewrite (toks_cur _ _ _ _ _ HTk), (peek _ _ _ HTk). unfold nextOf; simpl hd.
      rewrite (proj2 (teq_false _ _) HLst). cbn [negb andb].
      replace (0 <? precedence (tTok op)) with true by (destruct Hop as [-> | ->]; reflexivity).
      replace (ledFor (tTok op)) with (Some LeBound) by (destruct Hop as [-> | ->]; reflexivity).
      destruct (step _ _ _ HTk) as (p1 & E1 & T1 & S1). rewrite E1. cbn [rbind runLed].
      replace (parseBound X (parseEntry X g) l p1) with (Ok (NRange zeroPos ILLEGAL NNil NNil, @None diag, p1)) by (destruct l; try discriminate HB; reflexivity).
      cbn [rbind]. destruct (IT g fuel p1 rest T1 HNx ltac:(lia) ltac:(lia)) as (p5 & E5 & T5 & J1 & J2 & J3). rewrite E5. exists p5.
      unsame. rewrite lastOf_cons. split; auto. split; auto. split_all; congruence.
    - (* Es_nil *)
      intros c g fuel p rest keep acc HCl HTk HL1 HL2. simpl in HTk. exists p. rewrite !app_nil_r.
      split; auto. destruct fuel; simpl; unfold curr; rewrite (toks_cur _ _ _ _ _ HTk), teq_refl; reflexivity.
    - (* Es_cons *)
      intros e es c n ns tk tk' HE IE HEs IEs g fuel p rest keep acc HCl HTk HL1 HL2. destruct fuel as [|fuel]; [lia|].
      destruct e as [|t r]; [exfalso; eapply Entry_ne; eauto|]. rewrite <- app_assoc in HTk, HL1, HL2.
      simpl bracketLoop. assert (HNC : curr p <> tTok c).
      { unfold curr. simpl in HTk. rewrite (toks_cur _ _ _ _ _ HTk). intros E. rewrite <- E in HCl. eapply Entry_first; eauto. }
      rewrite (proj2 (teq_false _ _) HNC). unfold peCurr.
      destruct (IE g (precedence (curr p)) p (es ++ c :: rest) HTk) with (t := t) (r := r) as (p1 & E1 & T1 & K1 & K2 & K3); auto.
      { unfold nextOf. destruct es; auto. }
      rewrite E1. cbn [rbind]. destruct (step _ _ _ T1) as (p2 & E2 & T2 & S2). rewrite E2. cbn [rbind].
      rewrite app_length in HL1, HL2. simpl in HL1, HL2.
      destruct (IEs g fuel p2 rest keep (if keep n then acc ++ [n] else acc) HCl T2 ltac:(lia) ltac:(lia)) as (p3 & E3 & T3 & J1 & J2 & J3).
      exists p3. rewrite E3. unsame. split; [|split; auto; split; [congruence|split; [congruence|rewrite J3, app_assoc; congruence]]].
      simpl filter. destruct (keep n); [rewrite <- app_assoc|]; reflexivity.
  Qed.
End Complete.
