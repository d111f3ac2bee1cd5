(** What the functions below [parseRule] can do to the parser: move along the
    tokens and append tasks. Holds of every source, decodable or not. *)
From Coq Require Import String.
From Verif Require Import Base Utf8 Token Strconv Ext Lexer Ast Env Diag Parser.
Open Scope string_scope.
Open Scope list_scope.
Open Scope Z_scope.

(** [ok r Q]: if [r] returns, [Q] holds of the value. *)
Definition ok {A} (r : res A) (Q : A -> Prop) : Prop := forall a, r = Ok a -> Q a.

Lemma ok_bind : forall {A B} (e : res A) (k : A -> res B) (Q : B -> Prop), ok e (fun a => ok (k a) Q) -> ok (rbind e k) Q.
Proof. intros A B [] k Q H b E; simpl in *; try discriminate. eapply H; eauto. Qed.

Lemma ok_ret : forall {A} (a : A) (Q : A -> Prop), Q a -> ok (Ok a) Q.
Proof. intros A a Q H b E. inversion E; subst; auto. Qed.

Lemma ok_mono : forall {A} (e : res A) (Q R : A -> Prop), ok e Q -> (forall a, Q a -> R a) -> ok e R.
Proof. intros A e Q R H HR a E. auto. Qed.

Section Frame.
  Variable X : Ext.
  Variable R : parser -> parser -> Prop.
  Hypothesis Rtrans : forall p q r, R p q -> R q r -> R p r.
  Hypothesis Rnext : forall p q, pnext X p = Ok q -> R p q.
  Hypothesis Rtask : forall p t, R p (addTask p t).

  Definition okR {A} (p0 : parser) (r : res (A * parser)) : Prop := ok r (fun a => R p0 (snd a)).

  Definition fnR (pe : entryFn) : Prop := forall prec p0 p, R p0 p -> okR p0 (pe prec p).

  Lemma pnext_R : forall p0 p (Q : parser -> Prop), R p0 p -> (forall q, R p0 q -> Q q) -> ok (pnext X p) Q.
  Proof. intros p0 p Q H HQ q E. apply HQ. eauto. Qed.

  Lemma pe_R : forall pe p0 p (Q : node * option diag * parser -> Prop), fnR pe -> R p0 p ->
    (forall n d q, R p0 q -> Q (n, d, q)) -> ok (peCurr pe p) Q.
  Proof. intros pe p0 p Q HP H HQ [[n d] q] E. apply HQ. apply (HP _ _ _ H _ E). Qed.

  Ltac fstep :=
    match goal with
    | |- okR _ _ => unfold okR
    | |- ok (rbind _ _) _ => apply ok_bind
    | |- ok (pnext X _) _ => eapply pnext_R; [eassumption|intros]
    | HP : fnR ?pe |- ok (peCurr ?pe _) _ => eapply (pe_R pe); [exact HP|eassumption|intros]
    | |- ok (Ok _) _ => apply ok_ret
    | |- ok Panic _ => intros ? ?; discriminate
    | |- ok Hang _ => intros ? ?; discriminate
    | |- ok NoFuel _ => intros ? ?; discriminate
    | |- ok (match ?x with _ => _ end) _ => destruct x
    | |- ok (let '(_, _) := ?x in _) _ => destruct x
    | |- R _ _ => solve [simpl; eauto]
    | |- forall _, _ => intros
    end.
  Ltac fsolve := repeat (cbn [snd fst]; fstep).

  Lemma ok_any : forall {A} (e : res A) (Q : A -> Prop), (forall a, Q a) -> ok e Q.
  Proof. intros A e Q H a _. auto. Qed.

  Lemma commentLoop_R : forall f acc p0 p, R p0 p -> okR p0 (commentLoop X f acc p).
  Proof.
    induction f as [|f IH]; intros acc p0 p H; simpl; destruct (teq (peekTok p) COMMENT); fsolve.
    apply IH; auto.
  Qed.

  Lemma parseComment_R : forall f p0 p, R p0 p -> okR p0 (parseComment X f p).
  Proof.
    intros f p0 p H. unfold parseComment. apply ok_bind. eapply ok_mono; [eapply commentLoop_R; eauto|].
    intros [l p1] H1. cbn [snd] in H1. fsolve.
  Qed.

  Lemma bracketLoop_R : forall pe stop keep, fnR pe -> forall f acc p0 p, R p0 p ->
    okR p0 (bracketLoop X pe stop keep f acc p).
  Proof.
    intros pe stop keep HP. induction f as [|f IH]; intros acc p0 p H; simpl; destruct (teq (curr p) stop); fsolve.
    apply IH; auto.
  Qed.

  Lemma starts_R : forall {A} (r : res A) (Q : A -> Prop), (forall a, Q a) -> ok r Q.
  Proof. intros. now apply ok_any. Qed.

  Lemma parseOccurrence_R : forall pe left p0 p, fnR pe -> R p0 p -> okR p0 (parseOccurrence X pe left p).
  Proof.
    intros pe left p0 p HP H. unfold parseOccurrence. apply ok_bind. apply ok_any. intros [u|d]; fsolve.
    unfold occUpper. destruct (teq (peekTok p) INT && isLiteral (peekTok p) (peekLit p)).
    - apply ok_bind. eapply pnext_R; [eassumption|intros]. apply ok_bind.
      assert (HU : ok (parseUintType q) (fun x => snd x = q)).
      { unfold parseUintType. destruct (isLiteral (curr q) (currLit q)); [destruct (parseUintLiteral q)|]; apply ok_ret; reflexivity. }
      eapply ok_mono; [exact HU|]. intros [[n d] q2] E. cbn [snd] in E. subst q2. fsolve.
    - fsolve.
  Qed.

  Lemma runLed_R : forall pe k left p0 p, fnR pe -> R p0 p -> okR p0 (runLed X pe k left p).
  Proof.
    intros pe k left p0 p HP H. destruct k; cbn [runLed].
    - unfold parseColon. assert (HE : forall q, R p0 q -> okR p0 (entryTrailing X q)).
      { intros q Hq. unfold entryTrailing. fsolve. }
      destruct left; fsolve; (eapply ok_mono; [apply HE; eauto|]; intros [tc p3] H3; cbn [snd] in H3; fsolve).
    - unfold parseTypeChoice. fsolve.
    - unfold parseComparatorOp. destruct (typeOf left) as [[]|]; fsolve.
    - unfold parseSizeOperator. destruct (typeOf left) as [[]|]; fsolve.
    - unfold parseRegexp. destruct (typeOf left) as [[]|]; fsolve.
    - unfold parseBits. apply ok_bind. eapply pnext_R; [eassumption|intros]. apply ok_bind.
      eapply (pe_R pe); [exact HP|eassumption|intros]. destruct d; [apply ok_bind; apply ok_any; intros|]; fsolve.
    - unfold parseBound. assert (HL : forall b, okR p0 (parseLitBound X pe b left p)).
      { intros b. unfold parseLitBound. apply ok_bind. eapply pnext_R; [eassumption|intros]. apply ok_bind.
        eapply (pe_R pe); [exact HP|eassumption|intros]. cbn zeta. destruct d; [fsolve|].
        destruct n; try solve [fsolve]; try (destruct b; try solve [fsolve]);
          (apply ok_bind; apply ok_any; intros s; apply ok_bind; apply ok_any; intros e; fsolve). }
      destruct left; auto; try solve [fsolve]. unfold parseIdentBound. fsolve.
    - apply parseOccurrence_R; auto.
    - unfold parseComma. fsolve.
  Qed.

  Lemma runNud_R : forall pe f n p0 p, fnR pe -> R p0 p -> okR p0 (runNud X pe f n p).
  Proof.
    intros pe f n p0 p HP H. destruct n; cbn [runNud]; try (apply ok_ret; exact H).
    - unfold parseNamedIdentifier. fsolve. simpl. destruct (z =? 36); eauto.
    - unfold parseBooleanLiteral. fsolve.
    - unfold parseFloatType, parseFloatLiteral. fsolve.
    - unfold parseUintType. fsolve.
    - unfold parseIntegerType, parseIntegerLiteral. fsolve.
    - unfold parseMap. fsolve. eapply ok_mono; [eapply bracketLoop_R; eauto|]. intros [[l d] q2] H2; cbn [snd] in H2. fsolve.
    - unfold parseGroup. fsolve. eapply ok_mono; [eapply bracketLoop_R; eauto|]. intros [[l d] q2] H2; cbn [snd] in H2. fsolve.
    - unfold parseArray. fsolve. eapply ok_mono; [eapply bracketLoop_R; eauto|]. intros [[l d] q2] H2; cbn [snd] in H2. fsolve.
    - apply parseComment_R; auto.
    - unfold parseOptional. fsolve.
    - apply parseOccurrence_R; auto.
    - apply parseOccurrence_R; auto.
    - unfold parseUnwrap. fsolve.
    - unfold parseTag. apply ok_bind.
      apply ok_mono with (Q := fun h => match h with inl (_, _, q) => R p0 q | inr (_, q) => R p0 q end).
      + unfold parseTagHead. destruct (peekTok p); fsolve; auto.
      + intros [[[a b] q]|[d q]] Hq; [|fsolve]. destruct (teq (peekTok q) LPAREN); [|fsolve]. fsolve.
        unfold expectPeek. fsolve.
    - unfold parseEnumeration. fsolve.
  Qed.

  Lemma ledLoop_R : forall pe prec, fnR pe -> forall f e p0 p, R p0 p -> okR p0 (ledLoop X pe f prec e p).
  Proof.
    intros pe prec HP. induction f as [|f IH]; intros e p0 p H; simpl;
      (destruct (negb (teq (curr p) COMMA) && (prec <? precedence (peekTok p))); [|fsolve]);
      (destruct (ledFor (peekTok p)); [|fsolve]); [fsolve|].
    apply ok_bind. eapply pnext_R; [eassumption|intros]. apply ok_bind.
    eapply ok_mono; [eapply runLed_R; eauto|]. intros [[e1 d] p2] H2. cbn [snd] in H2. destruct d; [fsolve|]. apply IH; auto.
  Qed.

  Theorem parseEntry_R : forall f, fnR (parseEntry X f).
  Proof.
    induction f as [|f IH]; intros prec p0 p H; simpl; [fsolve|].
    apply ok_bind. apply ok_mono with (Q := fun q => R p0 q).
    - unfold skipComments. destruct (teq (curr p) COMMENT); [|apply ok_ret; auto]. apply ok_bind.
      eapply ok_mono; [eapply parseComment_R; eauto|]. intros [[n d] q] Hq. cbn [snd] in Hq. fsolve.
    - intros p1 H1. destruct (chooseNud p1); [|fsolve]. apply ok_bind.
      eapply ok_mono; [eapply runNud_R; eauto|]. intros [[e d] q] Hq. cbn [snd] in Hq. destruct d; [fsolve|].
      apply ledLoop_R; auto.
  Qed.

  Lemma ruleTrailing_R : forall p0 p, R p0 p -> okR p0 (ruleTrailing X p).
  Proof. intros p0 p H. unfold ruleTrailing. fsolve. Qed.
End Frame.

(** Environment and diagnostics are kept, tasks only added. *)
Definition keeps (p q : parser) : Prop :=
  env q = env p /\ perrors q = perrors p /\ exists tk, tasks q = tasks p ++ tk.

Lemma keeps_refl : forall p, keeps p p.
Proof. intros p. unfold keeps. split; auto. split; auto. exists []. now rewrite app_nil_r. Qed.

Lemma keeps_trans : forall p q r, keeps p q -> keeps q r -> keeps p r.
Proof.
  intros p q r (A1 & A2 & tk1 & A3) (B1 & B2 & tk2 & B3). split; [congruence|]. split; [congruence|].
  exists (tk1 ++ tk2). now rewrite B3, A3, app_assoc.
Qed.

Lemma keeps_next : forall X p q, pnext X p = Ok q -> keeps p q.
Proof.
  intros X p q H. unfold pnext in H. destruct (scan X (lx p)) as [[t l]| | |]; simpl in H; inversion H; subst.
  split; auto. split; auto. exists []. simpl. now rewrite app_nil_r.
Qed.

Lemma keeps_task : forall p t, keeps p (addTask p t).
Proof. intros p t. split; auto. split; auto. exists [t]; reflexivity. Qed.

Lemma parseEntry_keeps : forall X f prec p n d q, parseEntry X f prec p = Ok (n, d, q) -> keeps p q.
Proof.
  intros X f prec p n d q H.
  exact (parseEntry_R X keeps keeps_trans (keeps_next X) keeps_task f prec p p (keeps_refl p) _ H).
Qed.

Lemma ruleTrailing_keeps : forall X p tc q, ruleTrailing X p = Ok (tc, q) -> keeps p q.
Proof.
  intros X p tc q H.
  exact (ruleTrailing_R X keeps keeps_trans (keeps_next X) p p (keeps_refl p) _ H).
Qed.

Lemma parseComment_keeps : forall X f p n d q, parseComment X f p = Ok (n, d, q) -> keeps p q.
Proof.
  intros X f p n d q H.
  exact (parseComment_R X keeps keeps_trans (keeps_next X) f p p (keeps_refl p) _ H).
Qed.

(** The names and values that [=] rules tried to define, in order. *)
Definition addAll (e : environment) (l : list (bytes * node)) : environment :=
  fold_left (fun e b => fst (add e (fst b) (snd b))) l e.

(** [Tried rules l]: each element of [l] is the name and value of a rule, in order. *)
Inductive Tried : list node -> list (bytes * node) -> Prop :=
| Tr_nil : Tried [] []
| Tr_skip : forall n rules l, Tried rules l -> Tried (n :: rules) l
| Tr_rule : forall i v c rules l, Tried rules l -> Tried (NRule zeroPos i v c :: rules) ((iName i, v) :: l).

Lemma parseRule_tried : forall X f p n d q, parseRule X f p = Ok (n, d, q) ->
  (env q = env p /\ exists tk, tasks q = tasks p ++ tk) \/
  (exists i v c, n = NRule zeroPos i v c /\ d = None /\ env q = fst (add (env p) (iName i) v) /\ exists tk, tasks q = tasks p ++ tk).
Proof.
  intros X f p n d q H. unfold parseRule in H.
  assert (HK : forall q, keeps p q -> env q = env p /\ exists tk, tasks q = tasks p ++ tk) by (intros q0 (K1 & K2 & K3); auto).
  destruct (curr p); try (left; inversion H; subst; apply HK; apply keeps_refl).
  - left. apply parseComment_keeps in H. auto.
  - destruct (pnext X p) as [p1| | |] eqn:E1; try discriminate. simpl in H. apply keeps_next in E1.
    destruct (curr p1); try (left; inversion H; subst; apply HK; exact E1).
    + destruct (pnext X p1) as [p2| | |] eqn:E2; try discriminate. cbn [rbind] in H. apply keeps_next in E2.
      destruct (parseEntry X f (precedence (curr p2)) p2) as [[[e d1] p3]| | |] eqn:E3; try discriminate. cbn [rbind] in H.
      apply parseEntry_keeps in E3. pose proof (keeps_trans _ _ _ E1 (keeps_trans _ _ _ E2 E3)) as K3.
      destruct d1; [left; inversion H; subst; auto|].
      destruct (ruleTrailing X p3) as [[tc p4]| | |] eqn:E4; try discriminate. cbn [rbind] in H.
      apply ruleTrailing_keeps in E4. pose proof (keeps_trans _ _ _ K3 E4) as (K4 & _ & tk & K5).
      unfold registerRule in H. rewrite K4 in H. cbn [iName] in H.
      destruct (add (env p) (currLit p) e) as [e' dup] eqn:EA.
      right. destruct dup.
      * destruct (node_start (get (env (setEnv p4 e')) (currLit p))); try discriminate. cbn [rbind] in H. inversion H; subst.
        do 3 eexists. split; [reflexivity|]. split; auto. cbn [iName]. rewrite EA. split; auto. exists tk. exact K5.
      * cbn [rbind] in H. inversion H; subst.
        do 3 eexists. split; [reflexivity|]. split; auto. cbn [iName]. rewrite EA. split; auto. exists tk. exact K5.
    + destruct (pnext X p1) as [p2| | |] eqn:E2; try discriminate. cbn [rbind] in H. apply keeps_next in E2.
      destruct (parseEntry X f LOWEST p2) as [[[e d1] p3]| | |] eqn:E3; try discriminate. cbn [rbind] in H.
      apply parseEntry_keeps in E3. pose proof (keeps_trans _ _ _ E1 (keeps_trans _ _ _ E2 E3)) as K3. left.
      destruct d1; [inversion H; subst; auto|].
      destruct (ruleTrailing X p3) as [[tc p4]| | |] eqn:E4; try discriminate. cbn [rbind] in H.
      apply ruleTrailing_keeps in E4. inversion H; subst. apply HK. eapply keeps_trans; eauto.
    + destruct (pnext X p1) as [p2| | |] eqn:E2; try discriminate. cbn [rbind] in H. apply keeps_next in E2.
      destruct (parseEntry X f LOWEST p2) as [[[e d1] p3]| | |] eqn:E3; try discriminate. cbn [rbind] in H.
      apply parseEntry_keeps in E3. pose proof (keeps_trans _ _ _ E1 (keeps_trans _ _ _ E2 E3)) as K3. left.
      destruct d1; [inversion H; subst; auto|].
      destruct (ruleTrailing X p3) as [[tc p4]| | |] eqn:E4; try discriminate. cbn [rbind] in H.
      apply ruleTrailing_keeps in E4. inversion H; subst. apply HK. eapply keeps_trans; eauto.
Qed.

Lemma fileLoop_tried : forall X rf f acc p rules q, fileLoop X rf f acc p = Ok (rules, q) ->
  exists new l, rules = acc ++ new /\ Tried new l /\ env q = addAll (env p) l.
Proof.
  intros X rf. induction f as [|f IH]; intros acc p rules q H; simpl in H; destruct (teq (curr p) EOF);
    try (inversion H; subst; exists [], []; rewrite app_nil_r; split; auto; split; [constructor|reflexivity]); try discriminate.
  destruct (parseRule X rf p) as [[[n d] p1]| | |] eqn:E1; try discriminate. cbn [rbind] in H.
  destruct (pnext X (handle p1 d)) as [p2| | |] eqn:E2; try discriminate. cbn [rbind] in H.
  apply keeps_next in E2 as (E2 & _). apply IH in H as (new & l & -> & HT & HE).
  assert (EH : env (handle p1 d) = env p1) by (destruct d; reflexivity). rewrite E2, EH in HE.
  destruct (parseRule_tried _ _ _ _ _ _ E1) as [(K & _)|(i & v & c & -> & -> & K & _)].
  - exists ((if notNil n then [n] else []) ++ new), l. rewrite K in HE. split; [destruct (notNil n); [now rewrite <- app_assoc|reflexivity]|].
    split; auto. destruct (notNil n); simpl; [now apply Tr_skip|auto].
  - exists ((NRule zeroPos i v c) :: new), ((iName i, v) :: l). simpl. rewrite <- app_assoc. split; auto.
    split; [now apply Tr_rule|]. rewrite HE, K. reflexivity.
Qed.

Lemma runTasks_env : forall p, env (runTasks p) = env p.
Proof.
  intros p. unfold runTasks. assert (H : forall l q, env (fold_left (fun q t => handle q (runTask (env p) t)) l q) = env q).
  { induction l as [|t l IH]; intros q; simpl; auto. rewrite IH. destruct (runTask (env p) t); reflexivity. }
  apply H.
Qed.

Theorem parseSource_tried : forall X f s e r q, parseSource X f s e = Ok (r, q) ->
  (fst r = None /\ env q = e) \/
  exists rules l, fst r = Some (NCDDL zeroPos rules) /\ Tried rules l /\ env q = addAll e l.
Proof.
  intros X f s e r q H. unfold parseSource, newParser in H.
  destruct (pnext X _) as [p1| | |] eqn:E1 in H; try discriminate. cbn [rbind] in H.
  destruct (pnext X p1) as [p2| | |] eqn:E2; try discriminate. cbn [rbind] in H.
  apply keeps_next in E1 as (E1 & _). apply keeps_next in E2 as (E2 & _). cbn [env] in E1.
  unfold parseFile in H. destruct (errors (lx p2)).
  - destruct (fileLoop X f f [] p2) as [[rules p3]| | |] eqn:E3; try discriminate. cbn [rbind] in H. inversion H; subst.
    right. apply fileLoop_tried in E3 as (new & l & -> & HT & HE). exists new, l. split; auto. split; auto.
    rewrite runTasks_env, HE. f_equal. congruence.
  - inversion H; subst. left. split; auto.
Qed.
