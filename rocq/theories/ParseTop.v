(** [parseRule], the rule loop and [ParseFile]. *)
From Coq Require Import String.
From Verif Require Import Base Token Strconv Ext Lexer Ast Env Diag Parser ParseSpec ParseStream ParseFacts ParseSound ParseLoop.
From Verif Require LexWords.
Open Scope string_scope.
Open Scope list_scope.
Open Scope Z_scope.

(** Names of an environment. *)
Definition names (e : environment) : list bytes := map fst e.

Lemma exists_names : forall e k, exists_ e k = true <-> In k (names e).
Proof.
  intros e k. unfold exists_. induction e as [|[k' v] e IH]; simpl; [split; [discriminate|tauto]|].
  destruct (beq k' k) eqn:E.
  - apply beq_true in E. tauto.
  - apply beq_false in E. rewrite IH. intuition congruence.
Qed.

Lemma NoDup_snoc : forall A (l : list A) x, NoDup l -> ~ In x l -> NoDup (l ++ [x]).
Proof.
  intros A l x H HI. induction H as [|y l HY HN IH]; simpl; [repeat constructor; auto|].
  simpl in HI. constructor; [|apply IH; tauto]. rewrite in_app_iff. simpl. intuition.
Qed.

Lemma add_spec : forall e k v,
  (In k (names e) /\ add e k v = (e, true)) \/ (~ In k (names e) /\ add e k v = (e ++ [(k, v)], false)).
Proof.
  intros e k v. unfold add. destruct (exists_ e k) eqn:E.
  - left. split; auto. now apply exists_names.
  - right. split; auto. rewrite <- exists_names. congruence.
Qed.

(** [Bound rules df]: the definitions [df] are made by some of the rules, in
    order. *)
Inductive Bound : list node -> environment -> Prop :=
| B_nil : Bound [] []
| B_skip : forall n rules df, Bound rules df -> Bound (n :: rules) df
| B_def : forall i v c rules df, Bound rules df ->
    Bound (NRule zeroPos i v c :: rules) ((iName i, v) :: df).

Definition boundBy (n : node) (df : environment) : Prop :=
  df = [] \/ exists i v c, n = NRule zeroPos i v c /\ df = [(iName i, v)].

Lemma boundBy_defOf : forall a i v c, boundBy (NRule zeroPos i v c) (defOf a (iName i) v).
Proof. intros a i v c. unfold defOf, boundBy. destruct (teq a ASSIGN); eauto 6. Qed.

(** The outcome of one turn of the rule loop up to its last [next]. *)
Definition RulePost (X : Ext) (P : position -> Prop) (p : parser) (ts : list tokInfo) (f : fin)
    (r : node * option diag * parser) : Prop :=
  let '(n, d, p') := r in
  exists ts' tk ds df, Toks X p' ts' f /\ suf ts' ts /\ tasks p' = tasks p ++ tk /\ Forall (taskOk P) tk /\
    env p' = env p ++ df /\ (NoDup (names (env p)) -> NoDup (names (env p'))) /\
    perrors p' = perrors p ++ ds /\ Forall (fun x => P (dStart x)) ds /\
    (forall x, d = Some x -> P (dStart x)) /\ boundBy n df /\
    (d = None -> ds = [] -> notNil n = true /\ exists used, used <> [] /\ ts = used ++ tl ts' /\
       forall rules tk2 df2, File X (tl ts') (eofOf f) rules tk2 df2 ->
         File X ts (eofOf f) (n :: rules) (tk ++ tk2) (df ++ df2)).

Lemma rule_err : forall X (P : position -> Prop) p ts f n d p' ts' tk, Toks X p' ts' f -> suf ts' ts -> env p' = env p -> perrors p' = perrors p ->
  tasks p' = tasks p ++ tk -> Forall (taskOk P) tk -> P (dStart d) -> RulePost X P p ts f (n, Some d, p').
Proof.
  intros X P p ts f n d p' ts' tk H1 H2 H3 H4 H5 H6 H7. exists ts', tk, [], []. rewrite H3, H4, !app_nil_r.
  split_all; auto; [|now left|discriminate]. intros x E; now inversion E; subst.
Qed.

Lemma register_post : forall name v p (Q : parser -> Prop),
  (~ In (iName name) (names (env p)) -> Q (setEnv p (env p ++ [(iName name, v)]))) ->
  (In (iName name) (names (env p)) -> forall m s, Q (addDiag (setEnv p (env p)) (err m (iPos name) s))) ->
  wp (registerRule name v p) Q.
Proof.
  intros name v p Q H1 H2. unfold registerRule.
  destruct (add_spec (env p) (iName name) v) as [[HI E]|[HI E]]; rewrite E.
  - apply wp_bind. apply start_ok. intros s _. cbn [wp]. apply H2; auto.
  - cbn [wp]. apply H1; auto.
Qed.

Lemma ruleTrailing_post : forall X p t ts f (Q : option comment * parser -> Prop), Toks X p (t :: ts) f ->
  (~ trailing t (nextOf ts (eofOf f)) -> Q (None, p)) ->
  (forall c ts2 p', ts = c :: ts2 -> trailing t c -> Toks X p' ts2 f -> same p' p -> Q (Some (commentOf c), p')) ->
  wp (ruleTrailing X p) Q.
Proof.
  intros X p t ts f Q HT H1 H2. unfold ruleTrailing. pose proof (toks_cur _ _ _ _ _ HT) as HC.
  pose proof (toks_pk _ _ _ _ _ HT) as HK.
  destruct (teq (peekTok p) COMMENT && isSameLineTokens (pos p) (peekPos p)) eqn:EQ.
  - apply andb_true_iff in EQ as [E3 E4]. apply teq_true in E3.
    destruct (toks_pk_cons _ _ _ _ _ HT) as [ts2 ER]; [congruence|]. rewrite ER in HT.
    wnext HT p1 T1 S1. wnext T1 p2 T2 S2. cbn [wp].
    replace (parseInnerComment p1) with (commentOf (pk p)).
    2:{ unfold parseInnerComment, commentOf, pos, currLit. now rewrite (toks_cur _ _ _ _ _ T1). }
    apply H2 with (ts2 := ts2); auto; [|eapply same_trans; eauto].
    split; [exact E3|]. unfold isSameLineTokens, pos, peekPos in E4. rewrite HC in E4. lia.
  - cbn [wp]. apply H1. intros [E3 E4]. unfold peekTok, isSameLineTokens, pos, peekPos in EQ.
    rewrite HC, HK in EQ. unfold nextOf in *.
    replace (nth 0 ts (eofOf f)) with (hd (eofOf f) ts) in EQ by (destruct ts; reflexivity).
    rewrite E3, E4, teq_refl, Z.eqb_refl in EQ. discriminate.
Qed.

Lemma parseRule_post : forall X (P : position -> Prop) f fuel p ts, Toks X p ts f -> curr p <> EOF -> (length ts <= fuel)%nat -> posOk P ts f ->
  wp (parseRule X fuel p) (RulePost X P p ts f).
Proof.
  intros X P f fuel p ts HT NE HF HP. destruct (toks_cons _ _ _ _ HT NE) as [ts1 E1].
  remember (cur p) as t eqn:Et. subst ts. pose proof (toks_cur _ _ _ _ _ HT) as HC.
  assert (HP0 : P (tPos t)) by (destruct HP as [F _]; now inversion F).
  simpl in HF.
  assert (HBad : forall n m, wp (Ok (n, Some (err m (tPos t) (tPos t)), p)) (RulePost X P p (t :: ts1) f)).
  { intros n m. cbn [wp]. eapply rule_err with (tk := []); eauto; try apply suf_refl; now rewrite app_nil_r. }
  unfold parseRule.
  destruct (curr p) eqn:EC; try (unfold errorTokenExpected, pos; rewrite HC; apply HBad).
  - (* COMMENT *)
    unfold parseComment. apply wp_bind. eapply wp_mono; [eapply commentLoop_post; eauto; lia|].
    intros [l p'] (cms & rest & -> & H1 & H2 & H3 & H4 & ->). unsame.
    assert (HCt : commentTok t) by (unfold commentTok, curr in *; congruence).
    set (n := match ([parseInnerComment p] ++ map commentOf cms) with [c] => NComment c | l => NCommentGroup l end).
    assert (HR : RulePost X P p (t :: cms ++ rest) f (commentNode (t :: cms), None, p')).
    { exists (lastOf cms t :: rest), [], [], []. rewrite !app_nil_r. split_all; auto; try congruence; try apply suf_last; try (now left).
      - intros _ _. split; [destruct cms; reflexivity|]. exists (t :: cms). split; [discriminate|]. split; auto.
        intros rules tk2 df2 HFile. simpl in HFile. apply F_comments; auto.
        intros E. apply H4. unfold peekTok. rewrite (toks_pk _ _ _ _ _ H2). unfold nextOf in E. destruct rest; exact E. }
    replace (parseInnerComment p) with (commentOf t) by (unfold parseInnerComment, commentOf, pos, currLit; now rewrite HC).
    destruct cms; cbn [wp app map]; exact HR.
  - (* IDENT *)
    set (name := mkIdent (pos p) (currLit p)). wnext HT p1 T1 S1.
    assert (EN : name = mkIdent (tPos t) (tLit t)) by (unfold name, pos, currLit; now rewrite HC).
    assert (ETok : t = mkTok IDENT (tPos t) (tLit t)) by (destruct t; unfold curr in EC; rewrite HC in EC; simpl in *; congruence).
    assert (HRE : forall n m, wp (Ok (n, Some (err m (iPos name) (iPos name)), p1)) (RulePost X P p (t :: ts1) f)).
    { intros n m. cbn [wp]. unsame. eapply rule_err with (tk := []); eauto; try congruence.
      - apply suf_cons, suf_refl.
      - rewrite app_nil_r; congruence.
      - rewrite EN. exact HP0. }
    (* the part after the assignment sign *)
    assert (HAsg : forall a prec, curr p1 = a -> assignTok a -> (forall p2, prec p2 = 0 \/ prec p2 = precedence (curr p2)) ->
      forall (reg : node -> parser -> res parser),
      (forall v q (Q : parser -> Prop),
         (forall df, df = defOf a (tLit t) v -> (NoDup (names (env q)) -> NoDup (names (env q ++ df))) -> Q (setEnv q (env q ++ df))) ->
         (forall m s, Q (addDiag (setEnv q (env q)) (err m (tPos t) s))) -> wp (reg v q) Q) ->
      wp (p2 <- pnext X p1;;
          '(e, d, p3) <- parseEntry X fuel (prec p2) p2;;
          match d with
          | Some _ => Ok (NRule zeroPos name NNil None, d, p3)
          | None =>
            '(tc, p4) <- ruleTrailing X p3;;
            p5 <- reg e p4;;
            Ok (NRule zeroPos name e tc, None, p5)
          end) (RulePost X P p (t :: ts1) f)).
    { intros a prec EA HA HPr reg HReg.
      assert (NA : curr p1 <> EOF) by (unfold assignTok in HA; intuition congruence).
      destruct (toks_cons _ _ _ _ T1 NA) as [ts2 E2]. remember (cur p1) as ta eqn:Eta. subst ts1. simpl in HF.
      wnext T1 p2 T2 S2. apply wp_bind. unsame.
      assert (HP2 : posOk P ts2 f) by (eapply posOk_suf; [|eauto]; do 2 apply suf_cons; apply suf_refl).
      eapply wp_mono; [eapply (parseEntry_post X P f fuel (prec p2) p2 ts2); eauto; lia|].
      intros [[v d] p3] (ts' & tk & K1 & K2 & K3 & K4 & K5 & K6 & K7). destruct d as [d|].
      - cbn [wp]. eapply rule_err with (tk := tk); eauto; try congruence. do 2 apply suf_cons; auto.
      - destruct K7 as (t1 & u & rest & -> & -> & HE).
        assert (ETa : tTok ta = a) by (unfold curr in EA; congruence).
        assert (HNx : pk p3 = nextOf rest (eofOf f)) by (rewrite (toks_pk _ _ _ _ _ K1); unfold nextOf; destruct rest; reflexivity).
        rewrite HNx in HE.
        apply wp_bind. eapply ruleTrailing_post; [exact K1| |].
        + intros NT. apply wp_bind. apply HReg.
          * intros df Edf HND. cbn [wp]. exists (lastOf u t1 :: rest), tk, [], df. cbn [tasks env setEnv perrors].
            rewrite app_nil_r. split_all; auto; try congruence; try discriminate; try (now left); try (rewrite Edf, EN; apply (boundBy_defOf a (mkIdent (tPos t) (tLit t)))).
            -- apply toks_setEnv; auto.
            -- do 2 apply suf_cons. apply suf_last.
            -- intros HD. apply HND. congruence.
            -- intros _ _. split; auto. exists (t :: ta :: t1 :: u). split; [discriminate|]. split; [reflexivity|].
               intros rules tk2 df2 HFile. cbn [tl] in HFile. rewrite EN, Edf, <- ETa, ETok. cbn [tPos tLit].
               apply F_rule; auto. rewrite ETa; auto.
          * intros m s. cbn [wp]. exists (lastOf u t1 :: rest), tk, [err m (tPos t) s], [].
            cbn [tasks env setEnv perrors addDiag]. rewrite app_nil_r. split_all; auto; try congruence; try discriminate; try (now left); try (rewrite Edf, EN; apply (boundBy_defOf a (mkIdent (tPos t) (tLit t)))).
            -- apply toks_addDiag, toks_setEnv; auto.
            -- do 2 apply suf_cons. apply suf_last.
        + intros c ts3 p4 -> HTr T4 S4. unsame. apply wp_bind. apply HReg.
          * intros df Edf HND. cbn [wp]. exists ts3, tk, [], df. cbn [tasks env setEnv perrors].
            rewrite app_nil_r. split_all; auto; try congruence; try discriminate; try (now left); try (rewrite Edf, EN; apply (boundBy_defOf a (mkIdent (tPos t) (tLit t)))).
            -- apply toks_setEnv; auto.
            -- do 2 apply suf_cons. exists ((t1 :: u) ++ [c]). now rewrite <- app_assoc.
            -- intros HD. apply HND. congruence.
            -- intros _ _. split; auto. exists ((t :: ta :: t1 :: u) ++ c :: firstn 1 ts3). split; [discriminate|].
               split; [destruct ts3; simpl; now rewrite <- ?app_assoc|].
               intros rules tk2 df2 HFile. cbn [tl] in HFile. rewrite EN, Edf, <- ETa, ETok. cbn [tPos tLit].
               replace ((t1 :: u) ++ c :: ts3) with ((t1 :: u) ++ c :: firstn 1 ts3 ++ tl ts3) by (destruct ts3; reflexivity).
               apply F_ruleComment; auto; [rewrite ETa; auto|destruct ts3; simpl; auto].
          * intros m s. cbn [wp]. exists ts3, tk, [err m (tPos t) s], [].
            cbn [tasks env setEnv perrors addDiag]. rewrite app_nil_r. split_all; auto; try congruence; try discriminate; try (now left); try (rewrite Edf, EN; apply (boundBy_defOf a (mkIdent (tPos t) (tLit t)))).
            -- apply toks_addDiag, toks_setEnv; auto.
            -- do 2 apply suf_cons. exists ((t1 :: u) ++ [c]). now rewrite <- app_assoc.
}
    assert (HNoReg : forall a, a = TYPE_CHOICE_ASSIGN \/ a = GROUP_CHOICE_ASSIGN -> forall v q (Q : parser -> Prop),
         (forall df, df = defOf a (tLit t) v -> (NoDup (names (env q)) -> NoDup (names (env q ++ df))) -> Q (setEnv q (env q ++ df))) ->
         (forall m s, Q (addDiag (setEnv q (env q)) (err m (tPos t) s))) -> wp (Ok q) Q).
    { intros a Ha v q Q HQ _. cbn [wp]. specialize (HQ [] ltac:(destruct Ha as [-> | ->]; reflexivity)).
      rewrite app_nil_r in HQ. replace q with (setEnv q (env q)) by (destruct q; reflexivity). apply HQ; auto. }
    destruct (curr p1) eqn:EC1; try apply HRE.
    + apply (HAsg ASSIGN (fun p2 => precedence (curr p2))); auto; [left; auto|].
      intros v q Q HQ1 HQ2. apply register_post.
      * intros HI. rewrite EN in *. cbn [iName] in *. apply HQ1; [reflexivity|]. intros HD. unfold names. rewrite map_app. apply NoDup_snoc; auto.
      * intros HI m s. rewrite EN. apply HQ2.
    + apply (HAsg TYPE_CHOICE_ASSIGN (fun p2 => LOWEST) eq_refl) with (reg := fun _ q => Ok q); auto; [right; auto|].
      eapply HNoReg; auto.
    + apply (HAsg GROUP_CHOICE_ASSIGN (fun p2 => LOWEST) eq_refl) with (reg := fun _ q => Ok q); auto; [right; auto|].
      eapply HNoReg; auto.
Qed.

(** The rule loop. *)
Lemma fileLoop_post : forall X (P : position -> Prop) f rfuel fuel acc p ts, Toks X p ts f ->
  (length ts <= rfuel)%nat -> (length ts <= fuel)%nat -> posOk P ts f ->
  wp (fileLoop X rfuel fuel acc p) (fun r => let '(rules, p') := r in
    exists tk ds df new, Toks X p' [] f /\ tasks p' = tasks p ++ tk /\ Forall (taskOk P) tk /\
      env p' = env p ++ df /\ (NoDup (names (env p)) -> NoDup (names (env p'))) /\
      perrors p' = perrors p ++ ds /\ Forall (fun x => P (dStart x)) ds /\
      rules = acc ++ new /\ Bound new df /\ (ds = [] -> File X ts (eofOf f) new tk df)).
Proof.
  intros X P f rfuel. induction fuel as [|fuel IH]; intros acc p ts HT HR HF HP.
  - destruct ts; simpl in HF; [|lia]. simpl. assert (E : curr p = EOF) by (eapply toks_curr_eof; eauto). rewrite E, teq_refl. cbn [wp].
    exists [], [], [], []. rewrite !app_nil_r. split_all; auto; [constructor|]. intros _; constructor.
  - simpl fileLoop. destruct (teq (curr p) EOF) eqn:EE.
    + apply teq_true in EE. assert (ts = []) as -> by (eapply toks_curr_eof; eauto). cbn [wp].
      exists [], [], [], []. rewrite !app_nil_r. split_all; auto; [constructor|]. intros _; constructor.
    + apply teq_false in EE. apply wp_bind. eapply wp_mono; [eapply parseRule_post; eauto|].
      intros [[n d] p1] (ts' & tk & ds & df & K1 & K2 & K3 & K4 & K5 & K6 & K7 & K8 & K9 & KB & K10).
      assert (K1' : Toks X (handle p1 d) ts' f) by (apply toks_handle; auto).
      wnext K1' p2 T2 S2. destruct S2 as (S2a & S2b & S2c).
      assert (HLt : (length (tl ts') < length ts)%nat).
      { destruct (toks_cons _ _ _ _ HT EE) as [ts0 E0]. apply suf_len in K2. destruct ts'; simpl in *; [rewrite E0; simpl; lia|lia]. }
      assert (HP2 : posOk P (tl ts') f) by (eapply posOk_suf; [|eauto]; apply suf_tl; auto).
      eapply wp_mono; [eapply (IH (if notNil n then acc ++ [n] else acc) p2 (tl ts') T2); auto; lia|].
      intros [rules p3] (tk2 & ds2 & df2 & new & J1 & J2 & J3 & J4 & J5 & J6 & J7 & J8 & JB & J9).
      assert (HEnv : env (handle p1 d) = env p1) by (destruct d; reflexivity).
      assert (HTk : tasks (handle p1 d) = tasks p1) by (destruct d; reflexivity).
      exists (tk ++ tk2), (ds ++ (match d with Some x => [x] | None => [] end) ++ ds2), (df ++ df2),
        ((if notNil n then [n] else []) ++ new).
      split; auto. split; [rewrite J2, S2c, HTk, K3, app_assoc; auto|]. split; [apply Forall_app; auto|].
      split; [rewrite J4, S2b, HEnv, K5, app_assoc; auto|].
      split; [intros HD; apply J5; rewrite S2b, HEnv; auto|].
      split.
      { rewrite J6, S2a. destruct d as [x|]; cbn [handle addDiag perrors]; rewrite K7, <- ?app_assoc; reflexivity. }
      split.
      { apply Forall_app; split; auto. apply Forall_app; split; auto. destruct d; auto. }
      split.
      { rewrite J8. destruct (notNil n); [now rewrite <- app_assoc|reflexivity]. }
      split.
      { destruct KB as [-> |(i & v & c & -> & ->)]; simpl; [|apply B_def; auto]. destruct (notNil n); simpl; [apply B_skip|]; auto. }
      intros E. apply app_eq_nil in E as [E1 E]. apply app_eq_nil in E as [E2 E3].
      destruct d; [discriminate|]. destruct (K10 eq_refl E1) as (HNn & used & _ & EU & HFile). rewrite HNn. simpl.
      apply HFile. apply J9. exact E3.
Qed.

(** The deferred checks. *)
Definition failures (e : environment) (tk : list task) : list diag :=
  flat_map (fun t => match runTask e t with Some d => [d] | None => [] end) tk.

Lemma fold_spec : forall e tk p, let q := fold_left (fun q t => handle q (runTask e t)) tk p in
  perrors q = perrors p ++ failures e tk /\
  env q = env p /\ tasks q = tasks p /\ lx q = lx p /\ cur q = cur p /\ pk q = pk p.
Proof.
  intros e tk. induction tk as [|t tk IH]; intros p; cbn [fold_left]; cbn zeta; [simpl; rewrite app_nil_r; auto 10|].
  destruct (IH (handle p (runTask e t))) as (H1 & H2 & H3 & H4 & H5 & H6).
  rewrite H1, H2, H3, H4, H5, H6. unfold failures. cbn [flat_map].
  destruct (runTask e t); cbn [handle addDiag perrors env tasks lx cur pk]; repeat split; auto.
  rewrite <- app_assoc. reflexivity.
Qed.

Lemma runTasks_spec : forall p, perrors (runTasks p) = perrors p ++ failures (env p) (tasks p) /\
  env (runTasks p) = env p /\ tasks (runTasks p) = tasks p /\ lx (runTasks p) = lx p /\ cur (runTasks p) = cur p /\ pk (runTasks p) = pk p.
Proof. intros p. apply fold_spec. Qed.

Lemma runTask_start : forall (P : position -> Prop) e t d, taskOk P t -> runTask e t = Some d -> P (dStart d).
Proof.
  intros P e t d HT H. destruct t; simpl in *.
  - destruct (exists_ e name); inversion H; subst; auto.
  - destruct to; try discriminate. destruct (sameType _ _); inversion H; subst; auto.
  - destruct (exists_ e name); [|inversion H; subst; auto]. destruct (typeOf _) as [[]|]; inversion H; subst; auto.
  - destruct (exists_ e name); [|inversion H; subst; auto]. destruct (typeOf _) as [[]|]; inversion H; subst; auto.
Qed.

Lemma failures_start : forall (P : position -> Prop) e tk, Forall (taskOk P) tk -> Forall (fun x => P (dStart x)) (failures e tk).
Proof.
  intros P e tk H. unfold failures. induction H as [|t tk H1 H2 IH]; simpl; auto.
  apply Forall_app. split; auto. destruct (runTask e t) eqn:E; auto. constructor; auto. eapply runTask_start; eauto.
Qed.

Lemma failures_nil : forall e tk, failures e tk = [] <-> Forall (fun t => runTask e t = None) tk.
Proof.
  intros e tk. unfold failures. induction tk as [|t tk IH]; simpl; [split; auto|]. split.
  - intros H. apply app_eq_nil in H as [H1 H2]. constructor; [destruct (runTask e t); auto; discriminate|apply IH; auto].
  - intros H. inversion H as [|? ? H1 H2]; subst. rewrite H1. apply IH; auto.
Qed.

(** What [ParseFile] returns. *)
Theorem parseFile_post : forall X (P : position -> Prop) f fuel p ts, Toks X p ts f -> (length ts <= fuel)%nat -> posOk P ts f ->
  perrors p = [] -> tasks p = [] ->
  wp (parseFile X fuel p) (fun r => let '(res, p') := r in
    (errors (lx p) <> [] /\ res = (None, None) /\ p' = p) \/
    (errors (lx p) = [] /\ exists rules tk df ds, res = (Some (NCDDL zeroPos rules), collect (perrors p')) /\
       perrors p' = ds ++ failures (env p ++ df) tk /\ Forall (fun x => P (dStart x)) (perrors p') /\
       tasks p' = tk /\ env p' = env p ++ df /\ (NoDup (names (env p)) -> NoDup (names (env p'))) /\
       Bound rules df /\ f = FEof (eofOf f) /\ (ds = [] -> File X ts (eofOf f) rules tk df))).
Proof.
  intros X P f fuel p ts HT HF HP HE HTk. unfold parseFile. destruct (errors (lx p)) as [|x xs] eqn:EL.
  - apply wp_bind. eapply wp_mono; [eapply fileLoop_post; eauto|].
    intros [rules p1] (tk & ds & df & new & K1 & K2 & K3 & K4 & K5 & K6 & K7 & K8 & KB & K9). cbn [wp]. right. split; auto.
    destruct (runTasks_spec p1) as (R1 & R2 & R3 & _).
    rewrite HE in K6. rewrite HTk in K2. simpl in K2, K6, K8. subst new.
    exists rules, tk, df, ds. split; auto. rewrite R1, K6, K2, K4. split; auto. split.
    { apply Forall_app; split; auto. apply failures_start; auto. }
    split; [congruence|]. split; [congruence|]. split; [rewrite R2; auto|]. split; auto. split; auto.
    destruct (toks_nil _ _ _ K1) as (t & -> & _). reflexivity.
  - cbn [wp]. left. split; auto. discriminate.
Qed.
