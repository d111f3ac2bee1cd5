(** Files: the parser accepts exactly what [File] of ParseSpec.v derives. *)
From Coq Require Import String.
From Verif Require Import Base Token Strconv Ext Lexer Ast Env Diag Parser ParseSpec ParseStream ParseFacts ParseSound ParseLoop ParseTop ParseComplete.
From Verif Require LexWords.
Open Scope string_scope.
Open Scope list_scope.
Open Scope Z_scope.

Section FileC.
  Context (X : Ext) (eof : tokInfo).
  Let F := FEof eof.

  Lemma fresh_add : forall e w v d, NoDup (names (e ++ (w, v) :: d)) -> add e w v = (e ++ [(w, v)], false).
  Proof.
    intros e w v d H. destruct (add_spec e w v) as [[HI _]|[_ E]]; auto. exfalso.
    unfold names in H. rewrite map_app in H. simpl in H. apply NoDup_remove in H as [_ H]. apply H, in_or_app. auto.
  Qed.

  (** The common tail of a rule: from the assignment sign on. *)
  Lemma rule_run : forall p w a e0 ts2 v tk defs (rest : list tokInfo) tc,
    forall fuel p0 t e, e0 = t :: e ->
    Toks X p (mkTok IDENT p0 w :: a :: e0 ++ ts2) F -> assignTok (tTok a) ->
    Entry X e0 (nextOf ts2 eof) v tk ->
    (length (e0 ++ ts2) < fuel)%nat ->
    (tc = None /\ ~ trailing (lastOf e t) (nextOf ts2 eof) /\ rest = ts2 \/
     exists c ts3, ts2 = c :: ts3 /\ trailing (lastOf e t) c /\ tc = Some (commentOf c) /\ rest = tl ts3) ->
    NoDup (names (env p ++ defOf (tTok a) w v ++ defs)) ->
    exists p' p2, parseRule X fuel p = Ok (NRule zeroPos (mkIdent p0 w) v tc, None, p') /\ pnext X p' = Ok p2 /\
      Toks X p2 rest F /\ env p2 = env p ++ defOf (tTok a) w v /\ perrors p2 = perrors p /\ tasks p2 = tasks p ++ tk.
  Proof.
    intros p w a e0 ts2 v tk defs rest tc fuel p0 t e -> HT HA HE HL HTC HND.
    pose proof (toks_cur _ _ _ _ _ HT) as HC. 
    destruct (step X eof _ _ _ HT) as (p1 & E1 & T1 & S1).
    destruct (step X eof _ _ _ T1) as (p2 & E2 & T2 & S2).
    assert (HEn : forall prec, prec = 0 \/ prec = precedence (curr p2) ->
      exists p3, parseEntry X fuel prec p2 = Ok (v, None, p3) /\ Toks X p3 (lastOf e t :: ts2) F /\ env p3 = env p /\ perrors p3 = perrors p /\ tasks p3 = tasks p ++ tk).
    { intros prec HP. destruct (proj1 (complete X eof) _ _ _ _ HE fuel prec p2 ts2 T2 eq_refl HL HP t e eq_refl) as (p3 & Q1 & Q2 & Q3 & Q4 & Q5).
      unsame. exists p3. split_all; auto; congruence. }
    assert (HTr : forall p3, Toks X p3 (lastOf e t :: ts2) F -> exists p4, ruleTrailing X p3 = Ok (tc, p4) /\ Toks X p4 (match tc with None => lastOf e t :: ts2 | Some _ => tl ts2 end) F /\ same p4 p3).
    { intros p3 T3. unfold ruleTrailing. pose proof (toks_cur _ _ _ _ _ T3) as HC3. pose proof (peek X eof _ _ _ T3) as HK3.
      destruct HTC as [(-> & HN & ->)|(c & ts3 & -> & HTr & -> & ->)].
      - replace (teq (peekTok p3) COMMENT && isSameLineTokens (pos p3) (peekPos p3)) with false.
        { exists p3. split; auto. split; auto. apply same_refl. }
        symmetry. apply not_true_iff_false. intros EQ. apply andb_true_iff in EQ as [A1 A2]. apply HN. apply teq_true in A1.
        unfold peekTok in A1. unfold isSameLineTokens, pos, peekPos in A2. rewrite HK3 in *. rewrite HC3 in A2. split; auto. lia.
      - replace (teq (peekTok p3) COMMENT && isSameLineTokens (pos p3) (peekPos p3)) with true.
        2:{ destruct HTr as [A1 A2]. unfold peekTok, isSameLineTokens, pos, peekPos. rewrite HK3, HC3. unfold nextOf; simpl. now rewrite A1, A2, teq_refl, Z.eqb_refl. }
        destruct (step X eof _ _ _ T3) as (p4 & E4 & T4 & S4). destruct (step X eof _ _ _ T4) as (p5 & E5 & T5 & S5).
        rewrite E4. cbn [rbind]. rewrite E5. cbn [rbind]. exists p5.
        split; [|split; auto; eapply same_trans; eauto].
        unfold parseInnerComment, pos, currLit. now rewrite (toks_cur _ _ _ _ _ T4). }
    assert (HLast : forall p5 q, Toks X p5 (match tc with None => lastOf e t :: ts2 | Some _ => tl ts2 end) F -> q = p5 ->
       exists p6, pnext X q = Ok p6 /\ Toks X p6 rest F /\ same p6 p5).
    { intros p5 q T5 ->. destruct (pnext_eof _ _ _ _ T5) as (p6 & E6 & T6 & S6). exists p6. split; auto. split; auto.
      destruct HTC as [(-> & HN & ->)|(c & ts3 & -> & HTr' & -> & ->)]; exact T6. }
    unfold parseRule. unfold curr at 1. rewrite HC. cbn [tTok]. rewrite E1. cbn [rbind].
    unfold pos, currLit. rewrite HC. cbn [tPos tLit].
    replace (curr p1) with (tTok a) by (unfold curr; now rewrite (toks_cur _ _ _ _ _ T1)).
    assert (HNR : tTok a <> ASSIGN -> defOf (tTok a) w v = []) by (intros HN; unfold defOf; now rewrite (proj2 (teq_false _ _) HN)).
    destruct HA as [EA|[EA|EA]]; rewrite EA in *.
    - rewrite E2. cbn [rbind]. destruct (HEn (precedence (curr p2)) ltac:(auto)) as (p3 & E3 & T3 & K1 & K2 & K3). rewrite E3. cbn [rbind].
      destruct (HTr p3 T3) as (p4 & E4 & T4 & S4). rewrite E4. cbn [rbind]. unfold registerRule. cbn [iName].
      unsame. change (defOf ASSIGN w v) with [(w, v)] in *. simpl in HND.
      rewrite (fresh_add (env p4) w v defs) by congruence. cbn [rbind].
      assert (T5 : Toks X (setEnv p4 (env p4 ++ [(w, v)])) (match tc with None => lastOf e t :: ts2 | Some _ => tl ts2 end) F) by (apply toks_setEnv; auto).
      destruct (HLast _ _ T5 eq_refl) as (p6 & E6 & T6 & S6). unsame. cbn [setEnv env perrors tasks] in *.
      do 2 eexists. split; [reflexivity|]. split; [exact E6|]. split; auto. split_all; congruence.
    - rewrite E2. cbn [rbind]. destruct (HEn LOWEST ltac:(auto)) as (p3 & E3 & T3 & K1 & K2 & K3). rewrite E3. cbn [rbind].
      destruct (HTr p3 T3) as (p4 & E4 & T4 & S4). rewrite E4. cbn [rbind].
      destruct (HLast _ _ T4 eq_refl) as (p6 & E6 & T6 & S6). unsame.
      do 2 eexists. split; [reflexivity|]. split; [exact E6|]. rewrite HNR by discriminate. rewrite app_nil_r. split; auto. split_all; congruence.
    - rewrite E2. cbn [rbind]. destruct (HEn LOWEST ltac:(auto)) as (p3 & E3 & T3 & K1 & K2 & K3). rewrite E3. cbn [rbind].
      destruct (HTr p3 T3) as (p4 & E4 & T4 & S4). rewrite E4. cbn [rbind].
      destruct (HLast _ _ T4 eq_refl) as (p6 & E6 & T6 & S6). unsame.
      do 2 eexists. split; [reflexivity|]. split; [exact E6|]. rewrite HNR by discriminate. rewrite app_nil_r. split; auto. split_all; congruence.
  Qed.

  Lemma fileLoop_run : forall ts eof' rules tk defs, File X ts eof' rules tk defs -> eof' = eof ->
    forall rfuel fuel acc p, Toks X p ts F -> (length ts <= rfuel)%nat -> (length ts <= fuel)%nat -> NoDup (names (env p ++ defs)) ->
    exists p', fileLoop X rfuel fuel acc p = Ok (acc ++ rules, p') /\ Toks X p' [] F /\ env p' = env p ++ defs /\
      perrors p' = perrors p /\ tasks p' = tasks p ++ tk.
  Proof.
    intros ts eof' rules tk defs H. induction H as [eof'|c cms ts eof' rules tk defs HC HN HF IH|q w a t e ts eof' v rules tk tk' defs HA HE HTr HF IH
      |q w a t e c sw ts eof' v rules tk tk' defs HA HE HTr HSw HF IH]; intros Eeof rfuel fuel acc p HT HL1 HL2 HND; subst eof'.
    - assert (E : curr p = EOF) by (eapply toks_curr_eof; eauto). exists p. rewrite !app_nil_r. split; auto.
      destruct fuel; simpl; rewrite E, teq_refl; reflexivity.
    - destruct fuel as [|fuel]; [simpl in HL2; lia|]. simpl in HT, HL1, HL2. rewrite app_length in HL1, HL2.
      inversion HC as [|? ? HC1 HC2]; subst. pose proof (toks_cur _ _ _ _ _ HT) as HCur.
      assert (ECur : curr p = COMMENT) by (unfold curr; rewrite HCur; auto).
      simpl fileLoop. rewrite ECur. change (teq COMMENT EOF) with false. cbn iota. unfold parseRule. rewrite ECur. unfold parseComment.
      destruct (comments_run X eof cms rfuel [parseInnerComment p] p c ts HT HC2 HN ltac:(lia)) as (p1 & E1 & T1 & S1).
      rewrite E1. cbn [rbind].
      replace (parseInnerComment p) with (commentOf c) by (unfold parseInnerComment, commentOf, pos, currLit; now rewrite HCur).
      destruct (step X eof _ _ _ T1) as (p2 & E2 & T2 & S2). unsame.
      destruct (IH eq_refl rfuel fuel (acc ++ [commentNode (c :: cms)]) p2 T2 ltac:(lia) ltac:(lia) ltac:(congruence)) as (p3 & E3 & T3 & K1 & K2 & K3).
      exists p3. split; [|split; auto; split_all; congruence].
      replace (acc ++ commentNode (c :: cms) :: rules) with ((acc ++ [commentNode (c :: cms)]) ++ rules) by (now rewrite <- app_assoc).
      rewrite <- E3. destruct cms; cbn [app map rbind handle]; rewrite E2; reflexivity.
    - destruct fuel as [|fuel]; [simpl in HL2; lia|]. simpl fileLoop.
      assert (NE : curr p <> EOF) by (unfold curr; rewrite (toks_cur _ _ _ _ _ HT); discriminate).
      rewrite (proj2 (teq_false _ _) NE). simpl in HL1, HL2. rewrite app_length in HL1, HL2.
      destruct (rule_run p w a (t :: e) ts v tk defs ts None rfuel q t e eq_refl HT HA HE) as (p1 & p2 & E1 & E2 & T2 & K1 & K2 & K3); auto.
      { rewrite app_length. simpl. lia. }
      rewrite E1. cbn [rbind handle]. rewrite E2. cbn [rbind notNil].
      destruct (IH eq_refl rfuel fuel (acc ++ [NRule zeroPos (mkIdent q w) v None]) p2 T2 ltac:(lia) ltac:(lia)) as (p3 & E3 & T3 & J1 & J2 & J3).
      { rewrite K1, <- app_assoc. exact HND. }
      exists p3. rewrite E3, <- app_assoc. split; auto. split; auto.
      split; [rewrite J1, K1, <- app_assoc; auto|]. split; [congruence|]. rewrite J3, K3, <- app_assoc. auto.
    - destruct fuel as [|fuel]; [simpl in HL2; lia|]. simpl fileLoop.
      assert (NE : curr p <> EOF) by (unfold curr; rewrite (toks_cur _ _ _ _ _ HT); discriminate).
      rewrite (proj2 (teq_false _ _) NE). simpl in HL1, HL2. rewrite app_length in HL1, HL2. simpl in HL1, HL2. rewrite app_length in HL1, HL2.
      destruct (rule_run p w a (t :: e) (c :: sw ++ ts) v tk defs ts (Some (commentOf c)) rfuel q t e eq_refl HT HA HE) as (p1 & p2 & E1 & E2 & T2 & K1 & K2 & K3); auto.
      { rewrite app_length. simpl. rewrite app_length. lia. }
      { right. exists c, (sw ++ ts). split; auto. split; auto. split; auto.
        destruct HSw as [HSw|[-> ->]]; auto. destruct sw as [|x [|]]; simpl in HSw; try lia. reflexivity. }
      rewrite E1. cbn [rbind handle]. rewrite E2. cbn [rbind notNil].
      destruct (IH eq_refl rfuel fuel (acc ++ [NRule zeroPos (mkIdent q w) v (Some (commentOf c))]) p2 T2 ltac:(lia) ltac:(lia)) as (p3 & E3 & T3 & J1 & J2 & J3).
      { rewrite K1, <- app_assoc. exact HND. }
      exists p3. rewrite E3, <- app_assoc. split; auto. split; auto.
      split; [rewrite J1, K1, <- app_assoc; auto|]. split; [congruence|]. rewrite J3, K3, <- app_assoc. auto.
  Qed.

  (** [ParseFile] without diagnostics. *)
  Theorem parseFile_gen : forall fuel p ts rules tk df, Toks X p ts F -> (length ts <= fuel)%nat ->
    perrors p = [] -> tasks p = [] -> errors (lx p) = [] ->
    File X ts eof rules tk df -> NoDup (names (env p ++ df)) ->
    exists p', parseFile X fuel p = Ok ((Some (NCDDL zeroPos rules), collect (failures (env p ++ df) tk)), p') /\
      env p' = env p ++ df /\ tasks p' = tk /\ perrors p' = failures (env p ++ df) tk.
  Proof.
    intros fuel p ts rules tk df HT HL HE HTk HLx HF HND.
    destruct (fileLoop_run _ _ _ _ _ HF eq_refl fuel fuel [] p HT HL HL HND) as (p1 & E1 & T1 & K1 & K2 & K3).
    unfold parseFile. rewrite HLx, E1. cbn [rbind]. destruct (runTasks_spec p1) as (R1 & R2 & R3 & _).
    exists (runTasks p1).
    assert (HNil : perrors (runTasks p1) = failures (env p ++ df) tk).
    { rewrite R1, K2, HE, K1, K3, HTk. reflexivity. }
    rewrite HNil. split; auto. split; [congruence|]. split; [rewrite R3, K3, HTk; reflexivity|auto].
  Qed.

  Theorem parseFile_run : forall fuel p ts rules tk df, Toks X p ts F -> (length ts <= fuel)%nat ->
    perrors p = [] -> tasks p = [] -> errors (lx p) = [] ->
    File X ts eof rules tk df -> NoDup (names (env p ++ df)) -> Forall (fun t => runTask (env p ++ df) t = None) tk ->
    exists p', parseFile X fuel p = Ok ((Some (NCDDL zeroPos rules), None), p') /\ env p' = env p ++ df /\ tasks p' = tk /\ perrors p' = [].
  Proof.
    intros fuel p ts rules tk df HT HL HE HTk HLx HF HND HAll.
    destruct (parseFile_gen fuel p ts rules tk df) as (p' & H1 & H2 & H3 & H4); auto.
    apply failures_nil in HAll. rewrite HAll in *. eauto.
  Qed.
End FileC.
