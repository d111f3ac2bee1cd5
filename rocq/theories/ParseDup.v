(** Grammatical files in which names may be defined twice: what is registered and
    what is reported. *)
From Coq Require Import String.
From Verif Require Import Base Token Strconv Ext Lexer Ast Env Diag Parser ParseSpec ParseStream ParseFacts ParseSound ParseLoop ParseTop ParseComplete
  ParseFileC ParseShape LexSpec LexSpec2 ParseSource ParseUnique ParseTree.
From Verif Require LexWords.
Open Scope string_scope.
Open Scope list_scope.
Open Scope Z_scope.

(** The names defined with [=], where they stand. *)
Fixpoint assigned (ts : list tokInfo) : list ident :=
  match ts with
  | t :: r =>
    match r with
    | a :: _ => if teq (tTok t) IDENT && teq (tTok a) ASSIGN then mkIdent (tPos t) (tLit t) :: assigned r else assigned r
    | [] => []
    end
  | [] => []
  end.

(** [Registers e l e' ds]: defining the names [l] one after the other in [e] gives [e']
    and the diagnostics [ds]. A name defined before keeps its value; the diagnostic stands
    at the new name and tells where the first value starts. *)
Inductive Registers : environment -> list (ident * node) -> environment -> list diag -> Prop :=
| Rg_nil : forall e, Registers e [] e []
| Rg_new : forall e i v l e' ds, ~ bound e (iName i) -> Registers (e ++ [(iName i, v)]) l e' ds ->
    Registers e ((i, v) :: l) e' ds
| Rg_dup : forall e i v l v0 s e' ds, boundTo e (iName i) v0 -> node_start v0 = Ok s -> Registers e l e' ds ->
    Registers e ((i, v) :: l) e' (mkDiag (iPos i) (iPos i) (MExisting (iName i) (pLine s) (pColumn s)) :: ds).

(** [RegCrash e l]: a name is defined again whose first value has no start. *)
Inductive RegCrash : environment -> list (ident * node) -> Prop :=
| Rc_here : forall e i v l v0, boundTo e (iName i) v0 -> node_start v0 = Panic -> RegCrash e ((i, v) :: l)
| Rc_new : forall e i v l, ~ bound e (iName i) -> RegCrash (e ++ [(iName i, v)]) l -> RegCrash e ((i, v) :: l)
| Rc_dup : forall e i v l v0 s, boundTo e (iName i) v0 -> node_start v0 = Ok s -> RegCrash e l -> RegCrash e ((i, v) :: l).

(** One of the two happens, once. *)
Lemma node_start_cases : forall n, (exists s, node_start n = Ok s) \/ node_start n = Panic.
Proof. intros n. pose proof (start_wp n) as W. destruct (node_start n); simpl in W; eauto; contradiction. Qed.

Lemma registers_total : forall l e, (exists e' ds, Registers e l e' ds) \/ RegCrash e l.
Proof.
  induction l as [|[i v] l IH]; intros e; [left; exists e, []; constructor|].
  destruct (bound_dec e (iName i)) as [HB|HB].
  - destruct (bound_assoc _ _ HB) as [v0 HV]. destruct (node_start_cases v0) as [[s HS]|HS].
    + destruct (IH e) as [(e' & ds & H)|H]; [left|right].
      * do 2 eexists. eapply Rg_dup; eauto.
      * eapply Rc_dup; eauto.
    + right. eapply Rc_here; eauto.
  - destruct (IH (e ++ [(iName i, v)])) as [(e' & ds & H)|H]; [left|right].
    + do 2 eexists. eapply Rg_new; eauto.
    + eapply Rc_new; eauto.
Qed.

(** The names of the tokens of a file. *)
Lemma assigned_cons : forall t r, plainTok (hd (mkTok EOF zeroPos []) r) -> assigned (t :: r) = assigned r.
Proof.
  intros t [|a r] H; auto. cbn [assigned]. fold (assigned (a :: r)).
  destruct (teq (tTok a) ASSIGN) eqn:E; [|now rewrite andb_false_r].
  apply teq_true in E. exfalso. apply H. left; exact E.
Qed.

Lemma assigned_app : forall e ts, Forall plainTok e -> plainTok (hd (mkTok EOF zeroPos []) ts) -> assigned (e ++ ts) = assigned ts.
Proof.
  induction e as [|t e IH]; intros ts HE HT; auto. inversion HE; subst. simpl app. rewrite assigned_cons; auto.
  destruct e; simpl; auto. inversion H2; auto.
Qed.

Definition identOf (a : token) (p : position) (w : bytes) : list ident := if teq a ASSIGN then [mkIdent p w] else [].

Lemma assigned_rule : forall p w a e ts, assignTok (tTok a) -> plainTok (hd (mkTok EOF zeroPos []) (e ++ ts)) ->
  assigned (mkTok IDENT p w :: a :: e ++ ts) = identOf (tTok a) p w ++ assigned (e ++ ts).
Proof.
  intros p w a e ts HA HP. assert (E : assigned (a :: e ++ ts) = assigned (e ++ ts)) by (apply assigned_cons; auto).
  change (assigned (mkTok IDENT p w :: a :: e ++ ts)) with
    (if teq IDENT IDENT && teq (tTok a) ASSIGN then mkIdent p w :: assigned (a :: e ++ ts) else assigned (a :: e ++ ts)).
  rewrite teq_refl, E. unfold identOf. cbn [andb]. destruct (teq (tTok a) ASSIGN); reflexivity.
Qed.

Lemma assigned_F_comments : forall X c cms ts eof rules tk df, Forall commentTok (c :: cms) -> File X ts eof rules tk df ->
  assigned ((c :: cms) ++ ts) = assigned ts.
Proof.
  intros X c cms ts eof rules tk df HC HF. apply assigned_app; [|eapply file_hd; eauto].
  eapply Forall_impl; [|exact HC]. unfold commentTok. intros x E. unfold plainTok, assignTok. rewrite E. intuition congruence.
Qed.

Lemma assigned_F_rule : forall X p w a t e ts nx v tk0 eof rules tk df, assignTok (tTok a) ->
  Entry X (t :: e) nx v tk0 -> File X ts eof rules tk df ->
  assigned (mkTok IDENT p w :: a :: (t :: e) ++ ts) = identOf (tTok a) p w ++ assigned ts.
Proof.
  intros X p w a t e ts nx v tk0 eof rules tk df HA HE HF.
  pose proof (proj1 (grammar_plain X) _ _ _ _ HE) as HP. pose proof HP as HP'. inversion HP' as [|? ? HP1 HP2]; subst.
  rewrite (assigned_rule p w a (t :: e) ts); auto. f_equal. apply assigned_app; auto. eapply file_hd; eauto.
Qed.

Lemma assigned_F_ruleComment : forall X p w a t e c sw ts nx v tk0 eof rules tk df, assignTok (tTok a) ->
  Entry X (t :: e) nx v tk0 -> tTok c = COMMENT -> length sw = 1%nat \/ (sw = [] /\ ts = []) -> File X ts eof rules tk df ->
  assigned (mkTok IDENT p w :: a :: (t :: e) ++ c :: sw ++ ts) = identOf (tTok a) p w ++ assigned ts.
Proof.
  intros X p w a t e c sw ts nx v tk0 eof rules tk df HA HE HC HS HF.
  pose proof (proj1 (grammar_plain X) _ _ _ _ HE) as HP. pose proof HP as HP'. inversion HP' as [|? ? HP1 HP2]; subst.
  assert (PC : plainTok c) by (unfold plainTok, assignTok; rewrite HC; intuition congruence).
  rewrite (assigned_rule p w a (t :: e) (c :: sw ++ ts)); auto. f_equal.
  rewrite assigned_app; auto. pose proof (file_hd _ _ _ _ _ _ HF) as HH.
  assert (E2 : assigned (sw ++ ts) = assigned ts).
  { destruct HS as [HS|[-> _]]; auto. destruct sw as [|x [|y sw]]; try discriminate. simpl app. apply assigned_cons; auto. }
  rewrite <- E2. destruct (sw ++ ts) as [|x r]; [reflexivity|]. cbn [assigned].
  rewrite HC. reflexivity.
Qed.

Definition declared (ts : list tokInfo) (df : environment) : list (ident * node) := combine (assigned ts) (map snd df).

Lemma declared_app : forall a p w v ts df,
  combine (identOf a p w ++ assigned ts) (map snd (defOf a w v ++ df)) =
  (if teq a ASSIGN then [(mkIdent p w, v)] else []) ++ declared ts df.
Proof. intros a p w v ts df. unfold identOf, defOf, declared. destruct (teq a ASSIGN); reflexivity. Qed.

Section Dup.
  Context (X : Ext) (eof : tokInfo).
  Let F := FEof eof.

  (** A rule up to its registration. *)
  Lemma rule_run_gen : forall p w a e0 ts2 v tk tc,
    forall fuel p0 t e, e0 = t :: e ->
    Toks X p (mkTok IDENT p0 w :: a :: e0 ++ ts2) F -> assignTok (tTok a) ->
    Entry X e0 (nextOf ts2 eof) v tk ->
    (length (e0 ++ ts2) < fuel)%nat ->
    (tc = None /\ ~ trailing (lastOf e t) (nextOf ts2 eof) \/
     exists c ts3, ts2 = c :: ts3 /\ trailing (lastOf e t) c /\ tc = Some (commentOf c)) ->
    exists p4, parseRule X fuel p =
        (p5 <- (if teq (tTok a) ASSIGN then registerRule (mkIdent p0 w) v p4 else Ok p4);;
         Ok (NRule zeroPos (mkIdent p0 w) v tc, None, p5)) /\
      Toks X p4 (match tc with None => lastOf e t :: ts2 | Some _ => tl ts2 end) F /\
      env p4 = env p /\ perrors p4 = perrors p /\ tasks p4 = tasks p ++ tk.
  Proof.
    intros p w a e0 ts2 v tk tc fuel p0 t e -> HT HA HE HL HTC.
    pose proof (toks_cur _ _ _ _ _ HT) as HC.
    destruct (step X eof _ _ _ HT) as (p1 & E1 & T1 & S1).
    destruct (step X eof _ _ _ T1) as (p2 & E2 & T2 & S2).
    assert (HEn : forall prec, prec = 0 \/ prec = precedence (curr p2) ->
      exists p3, parseEntry X fuel prec p2 = Ok (v, None, p3) /\ Toks X p3 (lastOf e t :: ts2) F /\ env p3 = env p /\ perrors p3 = perrors p /\ tasks p3 = tasks p ++ tk).
    { intros prec HP. destruct (proj1 (complete X eof) _ _ _ _ HE fuel prec p2 ts2 T2 eq_refl HL HP t e eq_refl) as (p3 & Q1 & Q2 & Q3 & Q4 & Q5).
      unsame. exists p3. split_all; auto; congruence. }
    assert (HTr : forall p3, Toks X p3 (lastOf e t :: ts2) F -> exists p4, ruleTrailing X p3 = Ok (tc, p4) /\ Toks X p4 (match tc with None => lastOf e t :: ts2 | Some _ => tl ts2 end) F /\ same p4 p3).
    { intros p3 T3. unfold ruleTrailing. pose proof (toks_cur _ _ _ _ _ T3) as HC3. pose proof (peek X eof _ _ _ T3) as HK3.
      destruct HTC as [(-> & HN)|(c & ts3 & -> & HTr & ->)].
      - replace (teq (peekTok p3) COMMENT && isSameLineTokens (pos p3) (peekPos p3)) with false.
        { exists p3. split; auto. split; auto. apply same_refl. }
        symmetry. apply not_true_iff_false. intros EQ. apply andb_true_iff in EQ as [A1 A2]. apply HN. apply teq_true in A1.
        unfold peekTok in A1. unfold isSameLineTokens, pos, peekPos in A2. rewrite HK3 in *. rewrite HC3 in A2. split; auto. lia.
      - replace (teq (peekTok p3) COMMENT && isSameLineTokens (pos p3) (peekPos p3)) with true.
        2:{ destruct HTr as [A1 A2]. unfold peekTok, isSameLineTokens, pos, peekPos. rewrite HK3, HC3. unfold nextOf; simpl. now rewrite A1, A2, teq_refl, Z.eqb_refl. }
        destruct (step X eof _ _ _ T3) as (p4 & E4 & T4 & S4). destruct (step X eof _ _ _ T4) as (p5 & E5 & T5 & S5).
        rewrite E4. cbn [rbind]. rewrite E5. cbn [rbind]. exists p5.
        split; [|split; auto; eapply same_trans; eauto].
        unfold parseInnerComment, pos, currLit. now rewrite (toks_cur _ _ _ _ _ T4). }
    unfold parseRule. unfold curr at 1. rewrite HC. cbn [tTok]. rewrite E1. cbn [rbind].
    unfold pos, currLit. rewrite HC. cbn [tPos tLit].
    replace (curr p1) with (tTok a) by (unfold curr; now rewrite (toks_cur _ _ _ _ _ T1)).
    destruct HA as [EA|[EA|EA]]; rewrite EA in *.
    - rewrite E2. cbn [rbind]. destruct (HEn (precedence (curr p2)) ltac:(auto)) as (p3 & E3 & T3 & K1 & K2 & K3). rewrite E3. cbn [rbind].
      destruct (HTr p3 T3) as (p4 & E4 & T4 & S4). rewrite E4. cbn [rbind]. rewrite teq_refl. unsame.
      exists p4. split; [reflexivity|]. split; auto. split_all; congruence.
    - rewrite E2. cbn [rbind]. destruct (HEn LOWEST ltac:(auto)) as (p3 & E3 & T3 & K1 & K2 & K3). rewrite E3. cbn [rbind].
      destruct (HTr p3 T3) as (p4 & E4 & T4 & S4). rewrite E4. cbn [rbind]. change (teq TYPE_CHOICE_ASSIGN ASSIGN) with false. unsame.
      exists p4. split; [reflexivity|]. split; auto. split_all; congruence.
    - rewrite E2. cbn [rbind]. destruct (HEn LOWEST ltac:(auto)) as (p3 & E3 & T3 & K1 & K2 & K3). rewrite E3. cbn [rbind].
      destruct (HTr p3 T3) as (p4 & E4 & T4 & S4). rewrite E4. cbn [rbind]. change (teq GROUP_CHOICE_ASSIGN ASSIGN) with false. unsame.
      exists p4. split; [reflexivity|]. split; auto. split_all; congruence.
  Qed.

  (** Registering one name. *)
  Lemma register_new : forall i v p, ~ bound (env p) (iName i) -> registerRule i v p = Ok (setEnv p (env p ++ [(iName i, v)])).
  Proof.
    intros i v p H. unfold registerRule. destruct (add_spec (env p) (iName i) v) as [[HI E]|[_ E]]; [contradiction|].
    now rewrite E.
  Qed.

  Lemma register_dup : forall i v p v0, boundTo (env p) (iName i) v0 ->
    registerRule i v p = (s <- node_start v0;; Ok (addDiag (setEnv p (env p)) (err (MExisting (iName i) (pLine s) (pColumn s)) (iPos i) (iPos i)))).
  Proof.
    intros i v p v0 H. unfold registerRule. destruct (add_spec (env p) (iName i) v) as [[HI E]|[HI E]]; [|exfalso; apply HI; eapply assoc_bound; eauto].
    rewrite E. replace (get (env (setEnv p (env p))) (iName i)) with v0; auto.
    unfold get. cbn [env setEnv]. unfold boundTo in H. now rewrite H.
  Qed.

  (** The turn of the loop after the registration [q] of a rule. *)
  Lemma fileLoop_dup : forall ts eof' rules tk df, File X ts eof' rules tk df -> eof' = eof ->
    forall rfuel fuel acc p, Toks X p ts F -> (length ts <= rfuel)%nat -> (length ts <= fuel)%nat ->
    (forall e' ds, Registers (env p) (declared ts df) e' ds ->
      exists p', fileLoop X rfuel fuel acc p = Ok (acc ++ rules, p') /\ Toks X p' [] F /\ env p' = e' /\
        perrors p' = perrors p ++ ds /\ tasks p' = tasks p ++ tk) /\
    (RegCrash (env p) (declared ts df) -> fileLoop X rfuel fuel acc p = Panic).
  Proof.
    intros ts eof' rules tk df H.
    induction H as [eof'|c cms ts eof' rules tk defs HC HN HF IH|q w a t e ts eof' v rules tk tk' defs HA HE HTr HF IH
      |q w a t e c sw ts eof' v rules tk tk' defs HA HE HTr HSw HF IH]; intros Eeof rfuel fuel acc p HT HL1 HL2; subst eof'.
    - assert (E : curr p = EOF) by (eapply toks_curr_eof; eauto). split.
      + intros e' ds HR. inversion HR; subst. exists p. rewrite !app_nil_r. split; auto.
        destruct fuel; simpl; rewrite E, teq_refl; reflexivity.
      + intros HR. inversion HR.
    - unfold declared. erewrite assigned_F_comments by eauto. fold (declared ts defs).
      destruct fuel as [|fuel]; [simpl in HL2; lia|]. simpl in HT, HL1, HL2. rewrite app_length in HL1, HL2.
      inversion HC as [|? ? HC1 HC2]; subst. pose proof (toks_cur _ _ _ _ _ HT) as HCur.
      assert (ECur : curr p = COMMENT) by (unfold curr; rewrite HCur; auto).
      destruct (comments_run X eof cms rfuel [parseInnerComment p] p c ts HT HC2 HN ltac:(lia)) as (p1 & E1 & T1 & S1).
      destruct (step X eof _ _ _ T1) as (p2 & E2 & T2 & S2). unsame.
      assert (EL : fileLoop X rfuel (S fuel) acc p = fileLoop X rfuel fuel (acc ++ [commentNode (c :: cms)]) p2).
      { simpl fileLoop. rewrite ECur. change (teq COMMENT EOF) with false. cbn iota. unfold parseRule. rewrite ECur. unfold parseComment.
        rewrite E1. cbn [rbind].
        replace (parseInnerComment p) with (commentOf c) by (unfold parseInnerComment, commentOf, pos, currLit; now rewrite HCur).
        destruct cms; cbn [app map rbind handle]; rewrite E2; reflexivity. }
      rewrite EL.
      destruct (IH eq_refl rfuel fuel (acc ++ [commentNode (c :: cms)]) p2 T2 ltac:(lia) ltac:(lia)) as [IH1 IH2].
      assert (EE : env p2 = env p) by congruence. rewrite EE in *. split; auto.
      intros e' ds HR. destruct (IH1 e' ds HR) as (p3 & E3 & T3 & K1 & K2 & K3). exists p3. rewrite E3, <- app_assoc.
      split; auto. split; auto. split_all; congruence.
    - unfold declared. erewrite assigned_F_rule by eauto. rewrite declared_app.
      destruct fuel as [|fuel]; [simpl in HL2; lia|].
      assert (NE : curr p <> EOF) by (unfold curr; rewrite (toks_cur _ _ _ _ _ HT); discriminate).
      simpl in HL1, HL2. rewrite app_length in HL1, HL2.
      destruct (rule_run_gen p w a (t :: e) ts v tk None rfuel q t e eq_refl HT HA HE) as (p4 & E4 & T4 & K1 & K2 & K3); auto.
      { rewrite app_length. simpl. lia. }
      set (R := NRule zeroPos (mkIdent q w) v None) in *.
      assert (HRest : forall p5, Toks X p5 (lastOf e t :: ts) F -> exists p6, pnext X p5 = Ok p6 /\ Toks X p6 ts F /\ same p6 p5).
      { intros p5 T5. destruct (pnext_eof _ _ _ _ T5) as (p6 & E6 & T6 & S6). eauto. }
      simpl fileLoop. rewrite (proj2 (teq_false _ _) NE), E4.
      destruct (teq (tTok a) ASSIGN) eqn:EA; cbn [app].
      + split.
        * intros e' ds HR. inversion HR; subst.
          -- rewrite register_new by (now rewrite K1). cbn [rbind handle]. rewrite K1.
             destruct (HRest (setEnv p4 (env p ++ [(iName (mkIdent q w), v)])) (toks_setEnv _ _ _ _ _ T4)) as (p6 & E6 & T6 & S6).
             rewrite E6. cbn [rbind notNil]. unsame. cbn [setEnv env perrors tasks] in *.
             destruct (IH eq_refl rfuel fuel (acc ++ [R]) p6 T6 ltac:(lia) ltac:(lia)) as [IH1 _].
             destruct (IH1 e' ds) as (p7 & E7 & T7 & J1 & J2 & J3); [congruence|].
             exists p7. change (notNil R) with true. cbn iota. rewrite E7, <- app_assoc. split; auto. split; auto. split; auto. split; [congruence|]. rewrite J3, app_assoc. congruence.
          -- erewrite register_dup by (rewrite K1; eassumption). 
             match goal with HS : node_start _ = Ok _ |- _ => rewrite HS end. cbn [rbind handle]. rewrite K1.
             match goal with |- context [pnext X (addDiag ?q0 ?d)] => destruct (HRest (addDiag q0 d) (toks_addDiag _ _ _ _ _ (toks_setEnv _ _ _ _ _ T4))) as (p6 & E6 & T6 & S6) end.
             rewrite E6. cbn [rbind notNil]. unsame. cbn [setEnv addDiag env perrors tasks] in *.
             destruct (IH eq_refl rfuel fuel (acc ++ [R]) p6 T6 ltac:(lia) ltac:(lia)) as [IH1 _].
             match goal with HR' : Registers (env p) (declared ts defs) e' ?d |- _ => destruct (IH1 e' d) as (p7 & E7 & T7 & J1 & J2 & J3); [congruence|] end.
             exists p7. change (notNil R) with true. cbn iota. rewrite E7, <- app_assoc. split; auto. split; auto. split; auto. split; [|rewrite J3, app_assoc; congruence].
             rewrite J2. match goal with HP : perrors p6 = _ |- _ => rewrite HP end. rewrite K2, <- app_assoc. reflexivity.
        * intros HR. inversion HR; subst.
          -- erewrite register_dup by (rewrite K1; eassumption). match goal with HS : node_start _ = Panic |- _ => rewrite HS end. reflexivity.
          -- rewrite register_new by (now rewrite K1). cbn [rbind handle]. rewrite K1.
             destruct (HRest (setEnv p4 (env p ++ [(iName (mkIdent q w), v)])) (toks_setEnv _ _ _ _ _ T4)) as (p6 & E6 & T6 & S6).
             rewrite E6. cbn [rbind notNil]. unsame. cbn [setEnv env perrors tasks] in *.
             destruct (IH eq_refl rfuel fuel (acc ++ [R]) p6 T6 ltac:(lia) ltac:(lia)) as [_ IH2]. apply IH2. congruence.
          -- erewrite register_dup by (rewrite K1; eassumption).
             match goal with HS : node_start _ = Ok _ |- _ => rewrite HS end. cbn [rbind handle]. rewrite K1.
             match goal with |- context [pnext X (addDiag ?q0 ?d)] => destruct (HRest (addDiag q0 d) (toks_addDiag _ _ _ _ _ (toks_setEnv _ _ _ _ _ T4))) as (p6 & E6 & T6 & S6) end.
             rewrite E6. cbn [rbind notNil]. unsame. cbn [setEnv addDiag env perrors tasks] in *.
             destruct (IH eq_refl rfuel fuel (acc ++ [R]) p6 T6 ltac:(lia) ltac:(lia)) as [_ IH2]. apply IH2. congruence.
      + cbn [rbind handle]. destruct (HRest p4 T4) as (p6 & E6 & T6 & S6). rewrite E6. cbn [rbind notNil]. unsame.
        change (notNil R) with true. cbn iota.
        destruct (IH eq_refl rfuel fuel (acc ++ [R]) p6 T6 ltac:(lia) ltac:(lia)) as [IH1 IH2].
        assert (EE : env p6 = env p) by congruence. rewrite EE in *. split; auto.
        intros e' ds HR. destruct (IH1 e' ds HR) as (p7 & E7 & T7 & J1 & J2 & J3).
        exists p7. rewrite E7, <- app_assoc. split; auto. split; auto. split; auto. split; [congruence|]. rewrite J3, app_assoc. congruence.
    - unfold declared. erewrite assigned_F_ruleComment by (eauto; apply HTr). rewrite declared_app.
      destruct fuel as [|fuel]; [simpl in HL2; lia|].
      assert (NE : curr p <> EOF) by (unfold curr; rewrite (toks_cur _ _ _ _ _ HT); discriminate).
      simpl in HL1, HL2. rewrite app_length in HL1, HL2. simpl in HL1, HL2. rewrite app_length in HL1, HL2.
      destruct (rule_run_gen p w a (t :: e) (c :: sw ++ ts) v tk (Some (commentOf c)) rfuel q t e eq_refl HT HA HE) as (p4 & E4 & T4 & K1 & K2 & K3); auto.
      { rewrite app_length. simpl. rewrite app_length. lia. }
      { right. exists c, (sw ++ ts). auto. }
      set (R := NRule zeroPos (mkIdent q w) v (Some (commentOf c))) in *.
      cbn [tl] in T4.
      assert (HRest : forall p5, Toks X p5 (sw ++ ts) F -> exists p6, pnext X p5 = Ok p6 /\ Toks X p6 ts F /\ same p6 p5).
      { intros p5 T5. destruct (pnext_eof _ _ _ _ T5) as (p6 & E6 & T6 & S6). exists p6. split; auto. split; auto.
        destruct HSw as [HSw|[-> ->]]; auto. destruct sw as [|x [|]]; simpl in HSw; try lia. exact T6. }
      simpl fileLoop. rewrite (proj2 (teq_false _ _) NE), E4.
      destruct (teq (tTok a) ASSIGN) eqn:EA; cbn [app].
      + split.
        * intros e' ds HR. inversion HR; subst.
          -- rewrite register_new by (now rewrite K1). cbn [rbind handle]. rewrite K1.
             destruct (HRest (setEnv p4 (env p ++ [(iName (mkIdent q w), v)])) (toks_setEnv _ _ _ _ _ T4)) as (p6 & E6 & T6 & S6).
             rewrite E6. cbn [rbind notNil]. unsame. cbn [setEnv env perrors tasks] in *.
             destruct (IH eq_refl rfuel fuel (acc ++ [R]) p6 T6 ltac:(lia) ltac:(lia)) as [IH1 _].
             destruct (IH1 e' ds) as (p7 & E7 & T7 & J1 & J2 & J3); [congruence|].
             exists p7. change (notNil R) with true. cbn iota. rewrite E7, <- app_assoc. split; auto. split; auto. split; auto. split; [congruence|]. rewrite J3, app_assoc. congruence.
          -- erewrite register_dup by (rewrite K1; eassumption). 
             match goal with HS : node_start _ = Ok _ |- _ => rewrite HS end. cbn [rbind handle]. rewrite K1.
             match goal with |- context [pnext X (addDiag ?q0 ?d)] => destruct (HRest (addDiag q0 d) (toks_addDiag _ _ _ _ _ (toks_setEnv _ _ _ _ _ T4))) as (p6 & E6 & T6 & S6) end.
             rewrite E6. cbn [rbind notNil]. unsame. cbn [setEnv addDiag env perrors tasks] in *.
             destruct (IH eq_refl rfuel fuel (acc ++ [R]) p6 T6 ltac:(lia) ltac:(lia)) as [IH1 _].
             match goal with HR' : Registers (env p) (declared ts defs) e' ?d |- _ => destruct (IH1 e' d) as (p7 & E7 & T7 & J1 & J2 & J3); [congruence|] end.
             exists p7. change (notNil R) with true. cbn iota. rewrite E7, <- app_assoc. split; auto. split; auto. split; auto. split; [|rewrite J3, app_assoc; congruence].
             rewrite J2. match goal with HP : perrors p6 = _ |- _ => rewrite HP end. rewrite K2, <- app_assoc. reflexivity.
        * intros HR. inversion HR; subst.
          -- erewrite register_dup by (rewrite K1; eassumption). match goal with HS : node_start _ = Panic |- _ => rewrite HS end. reflexivity.
          -- rewrite register_new by (now rewrite K1). cbn [rbind handle]. rewrite K1.
             destruct (HRest (setEnv p4 (env p ++ [(iName (mkIdent q w), v)])) (toks_setEnv _ _ _ _ _ T4)) as (p6 & E6 & T6 & S6).
             rewrite E6. cbn [rbind notNil]. unsame. cbn [setEnv env perrors tasks] in *.
             destruct (IH eq_refl rfuel fuel (acc ++ [R]) p6 T6 ltac:(lia) ltac:(lia)) as [_ IH2]. apply IH2. congruence.
          -- erewrite register_dup by (rewrite K1; eassumption).
             match goal with HS : node_start _ = Ok _ |- _ => rewrite HS end. cbn [rbind handle]. rewrite K1.
             match goal with |- context [pnext X (addDiag ?q0 ?d)] => destruct (HRest (addDiag q0 d) (toks_addDiag _ _ _ _ _ (toks_setEnv _ _ _ _ _ T4))) as (p6 & E6 & T6 & S6) end.
             rewrite E6. cbn [rbind notNil]. unsame. cbn [setEnv addDiag env perrors tasks] in *.
             destruct (IH eq_refl rfuel fuel (acc ++ [R]) p6 T6 ltac:(lia) ltac:(lia)) as [_ IH2]. apply IH2. congruence.
      + cbn [rbind handle]. destruct (HRest p4 T4) as (p6 & E6 & T6 & S6). rewrite E6. cbn [rbind notNil]. unsame.
        change (notNil R) with true. cbn iota.
        destruct (IH eq_refl rfuel fuel (acc ++ [R]) p6 T6 ltac:(lia) ltac:(lia)) as [IH1 IH2].
        assert (EE : env p6 = env p) by congruence. rewrite EE in *. split; auto.
        intros e' ds HR. destruct (IH1 e' ds HR) as (p7 & E7 & T7 & J1 & J2 & J3).
        exists p7. rewrite E7, <- app_assoc. split; auto. split; auto. split; auto. split; [congruence|]. rewrite J3, app_assoc. congruence.
  Qed.
End Dup.
