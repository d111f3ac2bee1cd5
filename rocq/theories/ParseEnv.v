(** What the parser reads does not depend on the environment: the functions
    below [parseRule] neither look at it nor at the diagnostics. *)
From Coq Require Import String.
From Verif Require Import Base Utf8 Token Strconv Ext Lexer Ast Env Diag Parser ParseFrame ParseTwin.
Open Scope string_scope.
Open Scope list_scope.
Open Scope Z_scope.

(** Everything but the diagnostics and the environments agrees. *)
Inductive sib : parser -> parser -> Prop :=
| Sib : forall l c k ds ds' e e' tk, sib (mkParser l c k ds e tk) (mkParser l c k ds' e' tk).

Definition sibPair {A} (a b : A * parser) : Prop := fst a = fst b /\ sib (snd a) (snd b).
Definition sibSum {A B} (a b : (A * parser) + (B * parser)) : Prop :=
  match a, b with inl x, inl y => sibPair x y | inr x, inr y => sibPair x y | _, _ => False end.

Section Sibs.
  Variable X : Ext.

  Lemma pnext_sib : forall p q, sib p q -> relRes sib (pnext X p) (pnext X q).
  Proof. intros p q H. destruct H. unfold pnext. flat. destruct (scan X l) as [[t l']| | |]; simpl; auto. constructor. Qed.

  Definition sibFn (f g : entryFn) : Prop := forall prec p q, sib p q -> relRes (sibPair) (f prec p) (g prec q).

  Ltac unpair :=
    repeat match goal with
    | H : sibPair ?a ?b |- _ => is_var a; is_var b; destruct a, b, H; cbn [fst snd] in *; subst
    | H : sibSum ?a ?b |- _ => is_var a; is_var b; destruct a, b; cbn [sibSum] in H; try contradiction
    | a : (_ * _)%type |- _ => destruct a
    | H : sib ?a ?b |- _ => is_var a; is_var b; destruct H
    end.
  Ltac ret := cbn [relRes sibSum]; unfold sibPair; cbn [fst snd]; try split; try reflexivity; try constructor.
  Ltac tstep :=
    flat;
    match goal with
    | HP : sibFn _ _ |- relRes _ (rbind (?pe _ _) _) (rbind (?pe' _ _) _) => eapply rel_bind; [apply HP; constructor|intros ? ? ?; unpair]
    | |- relRes _ (rbind (pnext X _) _) (rbind (pnext X _) _) => eapply rel_bind; [apply pnext_sib; constructor|intros ? ? ?; unpair]
    | |- relRes _ (rbind ?a _) (rbind ?a _) => let E := fresh "E" in destruct a eqn:E; cbn [rbind]; try exact I
    | |- relRes _ (match ?x with _ => _ end) (match ?x with _ => _ end) => let E := fresh "E" in destruct x eqn:E
    | |- relRes _ Panic Panic => exact I
    | |- relRes _ (Ok _) (Ok _) => solve [ret]
    end.
  Ltac tsolve := repeat tstep.

  Lemma commentLoop_sib : forall f acc p q, sib p q -> relRes (sibPair) (commentLoop X f acc p) (commentLoop X f acc q).
  Proof.
    induction f as [|f IH]; intros acc p q H; destruct H; simpl; flat; destruct (teq (tTok k) COMMENT); try exact I; try (split; auto; constructor; fail).
    eapply rel_bind; [apply pnext_sib; constructor|]. intros p1 q1 HT. pose proof HT as HT'. destruct HT. apply IH. auto.
  Qed.

  Lemma parseComment_sib : forall f p q, sib p q -> relRes (sibPair) (parseComment X f p) (parseComment X f q).
  Proof.
    intros f p q H. unfold parseComment. eapply rel_bind.
    - replace (parseInnerComment q) with (parseInnerComment p) by (destruct H; reflexivity). apply commentLoop_sib. exact H.
    - intros x y HP. unpair. tsolve.
  Qed.

  Lemma entryTrailing_sib : forall p q, sib p q -> relRes (sibPair) (entryTrailing X p) (entryTrailing X q).
  Proof. intros p q H. destruct H. unfold entryTrailing. tsolve. Qed.

  Lemma expectPeek_sib : forall t p q, sib p q -> relRes sib (expectPeek X t p) (expectPeek X t q).
  Proof.
    intros t p q H. destruct H. unfold expectPeek. flat. destruct (teq (tTok k) t); [apply pnext_sib|]; constructor.
  Qed.

  Lemma parseTagHead_sib : forall p q, sib p q -> relRes (sibSum) (parseTagHead X p) (parseTagHead X q).
  Proof.
    intros p q H. destruct H. unfold parseTagHead. flat.
    destruct (tTok k) eqn:E; try (ret; fail).
    - tsolve.
    - eapply rel_bind; [apply pnext_sib; constructor|intros ? ? ?; unpair]. unfold parseFloatTag. flat.
      destruct (splitDot (tLit c0)) as [|a [|b [|? ?]]]; try (ret; fail).
      destruct (parseUint a); try (ret; fail). destruct (parseUint b); ret.
  Qed.

  Lemma occUpper_sib : forall p q, sib p q -> relRes (sibSum) (occUpper X p) (occUpper X q).
  Proof.
    intros p q H. destruct H. unfold occUpper, parseUintType, parseUintLiteral. flat.
    destruct (teq (tTok k) INT && isLiteral (tTok k) (tLit k)); eapply rel_bind; try (apply pnext_sib; constructor); intros ? ? ?; unpair; flat.
    - destruct (isLiteral (tTok c0) (tLit c0)); cbn [rbind]; try (ret; fail). destruct (parseUint (tLit c0)); cbn [rbind]; ret.
    - ret.
  Qed.

  Lemma occLower_sib : forall n p q, sib p q -> occLower n p = occLower n q.
  Proof. intros n p q H. destruct H. reflexivity. Qed.

  Lemma parseOccurrence_sib : forall pe pe' n p q, sibFn pe pe' -> sib p q ->
    relRes (sibPair) (parseOccurrence X pe n p) (parseOccurrence X pe' n q).
  Proof.
    intros pe pe' n p q HP H. unfold parseOccurrence. rewrite (occLower_sib n p q H).
    destruct (occLower n q) as [[u|d]| | |]; cbn [rbind]; try exact I.
    - eapply rel_bind; [apply occUpper_sib; exact H|]. intros x y HT. unpair; tsolve.
    - destruct H. tsolve.
  Qed.

  Lemma runLed_sib : forall pe pe' k left p q, sibFn pe pe' -> sib p q ->
    relRes (sibPair) (runLed X pe k left p) (runLed X pe' k left q).
  Proof.
    intros pe pe' k left p q HP H. destruct k; cbn [runLed]; try (apply parseOccurrence_sib; auto; fail); destruct H.
    - unfold parseColon. flat. destruct left; tsolve;
        (eapply rel_bind; [apply entryTrailing_sib; constructor|intros ? ? ?; unpair; tsolve]).
    - unfold parseTypeChoice. tsolve.
    - unfold parseComparatorOp. flat. destruct (typeOf left) as [[]|]; tsolve.
    - unfold parseSizeOperator. flat. destruct (typeOf left) as [[]|]; tsolve.
    - unfold parseRegexp. flat. destruct (typeOf left) as [[]|]; tsolve.
    - unfold parseBits. tsolve.
    - unfold parseBound, parseLitBound, parseIdentBound. flat. destruct left; tsolve.
    - unfold parseComma. tsolve.
  Qed.

  Lemma bracketLoop_sib : forall pe pe' stop keep, sibFn pe pe' -> forall f acc p q, sib p q ->
    relRes (sibPair) (bracketLoop X pe stop keep f acc p) (bracketLoop X pe' stop keep f acc q).
  Proof.
    intros pe pe' stop keep HP. induction f as [|f IH]; intros acc p q H; destruct H; simpl; flat; (destruct (teq (tTok c) stop); [ret|]); [exact I|].
    eapply rel_bind; [apply HP; constructor|]. intros [[e1 d] p2] [[e2 d2] q2] [E HT2]. cbn [fst snd] in *. inversion E; subst.
    destruct d2; [split; auto|]. eapply rel_bind; [apply pnext_sib; exact HT2|]. intros p1 q1 HT. apply IH; auto.
  Qed.

  Lemma runNud_sib : forall pe pe' f n p q, sibFn pe pe' -> sib p q ->
    relRes (sibPair) (runNud X pe f n p) (runNud X pe' f n q).
  Proof.
    intros pe pe' f n p q HP H. destruct n; cbn [runNud]; try (apply parseComment_sib; auto; fail);
      try (unfold parsePrefixOccurrence; replace (pos q) with (pos p) by (destruct H; reflexivity); apply parseOccurrence_sib; auto; fail);
      pose proof H as H0; destruct H.
    1: unfold parseIdentifier; tsolve. 1: unfold parseNamedIdentifier; flat; destruct (tLit c) as [|z w]; [exact I|]; destruct (z =? 36); ret.
    1: tsolve. 1: unfold parseBooleanLiteral; tsolve. 1, 2: tsolve. 1: unfold parseFloatType, parseFloatLiteral; tsolve.
    1: unfold parseUintType, parseUintLiteral; tsolve. 1: unfold parseIntegerType, parseIntegerLiteral; tsolve. 1, 2, 3, 4: tsolve.
    all: try (unfold parseMap, parseGroup, parseArray; eapply rel_bind; [apply pnext_sib; exact H0|]; intros p1 q1 HT;
              eapply rel_bind; [apply bracketLoop_sib; auto|]; intros; unpair; tsolve; fail).
    - unfold parseOptional. tsolve.
    - unfold parseUnwrap. tsolve.
    - unfold parseTag. eapply rel_bind; [apply parseTagHead_sib; exact H0|]. intros x y HT. unpair; tsolve.
      eapply rel_bind; [apply expectPeek_sib; constructor|]. intros p5 q5 HT5. destruct HT5. tsolve.
    - unfold parseEnumeration. tsolve.
  Qed.

  Lemma ledLoop_sib : forall pe pe' prec, sibFn pe pe' -> forall f e p q, sib p q ->
    relRes (sibPair) (ledLoop X pe f prec e p) (ledLoop X pe' f prec e q).
  Proof.
    intros pe pe' prec HP. induction f as [|f IH]; intros e p q H; pose proof H as H0; destruct H; simpl; flat;
      (destruct (negb (teq (tTok c) COMMA) && (prec <? precedence (tTok k))); [|ret]); (destruct (ledFor (tTok k)); [|ret]); [exact I|].
    eapply rel_bind; [apply pnext_sib; exact H0|]. intros p1 q1 HT. eapply rel_bind; [apply runLed_sib; eauto|].
    intros [[e1 d] p2] [[e2 d2] q2] [E HT2]. cbn [fst snd] in *. inversion E; subst. destruct d2; [split; auto|]. apply IH; auto.
  Qed.

  Lemma parseEntry_sib : forall f, sibFn (parseEntry X f) (parseEntry X f).
  Proof.
    induction f as [|f IH]; intros prec p q H; [exact I|]. simpl. eapply rel_bind.
    - instantiate (1 := sib). unfold skipComments. replace (curr q) with (curr p) by (destruct H; reflexivity).
      destruct (teq (curr p) COMMENT); [|exact H]. eapply rel_bind; [apply parseComment_sib; exact H|].
      intros [[a b] c] [[a' b'] c'] [_ HT]. apply pnext_sib. exact HT.
    - intros p1 q1 HT. replace (chooseNud q1) with (chooseNud p1) by (destruct HT; reflexivity).
      destruct (chooseNud p1); [|destruct HT; tsolve]. eapply rel_bind; [apply runNud_sib; eauto|].
      intros [[e1 d] p2] [[e2 d2] q2] [E HT2]. cbn [fst snd] in *. inversion E; subst. destruct d2; [split; auto|]. apply ledLoop_sib; auto.
  Qed.

  Lemma ruleTrailing_sib : forall p q, sib p q -> relRes (sibPair) (ruleTrailing X p) (ruleTrailing X q).
  Proof. intros p q H. destruct H. unfold ruleTrailing. tsolve. Qed.

End Sibs.

(** ** The parser without environment and diagnostics *)

Record core : Type := mkCore { kLx : lexer; kCur : tokInfo; kPk : tokInfo; kTasks : list task }.
Definition put (k : core) (ds : list diag) (e : environment) : parser := mkParser (kLx k) (kCur k) (kPk k) ds e (kTasks k).
Definition coreOf (p : parser) : core := mkCore (lx p) (cur p) (pk p) (tasks p).

Lemma put_core : forall p, put (coreOf p) (perrors p) (env p) = p.
Proof. intros []. reflexivity. Qed.

Definition bare {A} (r : res (A * parser)) : res (A * core) := '(a, p) <- r;; Ok (a, coreOf p).
Definition dress {A} (r : res (A * core)) (ds : list diag) (e : environment) : res (A * parser) := '(a, k) <- r;; Ok (a, put k ds e).

(** A function of the parser that keeps environment and diagnostics and does not look at them. *)
Lemma dressed : forall {A} (f : parser -> res (A * parser)), (forall p q, sib p q -> relRes sibPair (f p) (f q)) ->
  (forall p a q, f p = Ok (a, q) -> keeps p q) -> forall k ds e, f (put k ds e) = dress (bare (f (put k [] []))) ds e.
Proof.
  intros A f HS HK k ds e. assert (S : sib (put k ds e) (put k [] [])) by constructor. specialize (HS _ _ S).
  destruct (f (put k ds e)) as [[a p]| | |] eqn:E1, (f (put k [] [])) as [[b q]| | |] eqn:E2; simpl in HS; try contradiction; try reflexivity.
  destruct HS as [EA SQ]. cbn [fst snd] in *. subst. apply HK in E1 as (K1 & K2 & _). destruct SQ. cbn [env perrors put] in *. subst. reflexivity.
Qed.

Lemma dressed_entry : forall X f prec k ds e, parseEntry X f prec (put k ds e) = dress (bare (parseEntry X f prec (put k [] []))) ds e.
Proof.
  intros X f prec. apply (dressed (parseEntry X f prec)); [intros p q H; now apply parseEntry_sib|]. intros p [n d] q H. eapply parseEntry_keeps; eauto.
Qed.

Lemma dressed_trailing : forall X k ds e, ruleTrailing X (put k ds e) = dress (bare (ruleTrailing X (put k [] []))) ds e.
Proof. intros X. apply (dressed (ruleTrailing X)); [apply ruleTrailing_sib|]. intros p a q H. eapply ruleTrailing_keeps; eauto. Qed.

Lemma dressed_comment : forall X f k ds e, parseComment X f (put k ds e) = dress (bare (parseComment X f (put k [] []))) ds e.
Proof. intros X f. apply (dressed (parseComment X f)); [apply parseComment_sib|]. intros p [n d] q H. eapply parseComment_keeps; eauto. Qed.

(** What a rule does: the node, the diagnostic, and what it defines. *)
Definition ruleOut : Type := node * option diag * option (ident * node).

Definition ruled (o : res (ruleOut * core)) (ds : list diag) (e : environment) : pres :=
  '(n, d, reg, k) <- o;;
  p <- match reg with Some (i, v) => registerRule i v (put k ds e) | None => Ok (put k ds e) end;;
  Ok (n, d, p).

Definition uni (F : list diag -> environment -> pres) : Prop := exists o, forall ds e, F ds e = ruled o ds e.

Lemma uni_ret : forall n d k, uni (fun ds e => Ok (n, d, put k ds e)).
Proof. intros n d k. exists (Ok (n, d, None, k)). reflexivity. Qed.

Lemma uni_reg : forall n d i v k, uni (fun ds e => p <- registerRule i v (put k ds e);; Ok (n, d, p)).
Proof. intros n d i v k. exists (Ok (n, d, Some (i, v), k)). reflexivity. Qed.

Lemma uni_next : forall X k G, (forall k', uni (fun ds e => G (put k' ds e))) -> uni (fun ds e => rbind (pnext X (put k ds e)) G).
Proof.
  intros X k G H. unfold pnext, put. cbn [lx cur pk perrors env tasks]. destruct (scan X (kLx k)) as [[t l]| | |]; cbn [rbind].
  - apply (H (mkCore l (kPk k) t (kTasks k))).
  - exists Panic; reflexivity.
  - exists Hang; reflexivity.
  - exists NoFuel; reflexivity.
Qed.

Lemma uni_bind : forall {A} (f : parser -> res (A * parser)) k (G : A * parser -> pres),
  (forall ds e, f (put k ds e) = dress (bare (f (put k [] []))) ds e) ->
  (forall a k', uni (fun ds e => G (a, put k' ds e))) -> uni (fun ds e => rbind (f (put k ds e)) G).
Proof.
  intros A f k G HD H. destruct (bare (f (put k [] []))) as [[a k']| | |].
  - destruct (H a k') as [o Ho]. exists o. intros ds e. rewrite HD. cbn [dress rbind]. apply Ho.
  - exists Panic. intros ds e. rewrite HD. reflexivity.
  - exists Hang. intros ds e. rewrite HD. reflexivity.
  - exists NoFuel. intros ds e. rewrite HD. reflexivity.
Qed.

Lemma uni_ext : forall F G, (forall ds e, F ds e = G ds e) -> uni G -> uni F.
Proof. intros F G H [o Ho]. exists o. intros ds e. now rewrite H. Qed.

Lemma rule_out : forall X f k, uni (fun ds e => parseRule X f (put k ds e)).
Proof.
  intros X f k. unfold parseRule, curr, pos, currLit. cbn [cur put]. destruct (tTok (kCur k)); try apply uni_ret.
  - eapply uni_ext; [intros; apply dressed_comment|]. destruct (bare (parseComment X f (put k [] []))) as [[[n d] k']| | |];
      [apply uni_ret|exists Panic|exists Hang|exists NoFuel]; reflexivity.
  - apply uni_next. intros k1. cbn [cur put]. destruct (tTok (kCur k1)); try apply uni_ret; apply uni_next; intros k2; cbn [cur put].
    + apply (uni_bind (parseEntry X f (precedence (tTok (kCur k2))))); [apply dressed_entry|]. intros [n [d|]] k3; [apply uni_ret|].
      apply (uni_bind (ruleTrailing X)); [apply dressed_trailing|]. intros tc k4. apply uni_reg.
    + apply (uni_bind (parseEntry X f LOWEST)); [apply dressed_entry|]. intros [n [d|]] k3; [apply uni_ret|].
      apply (uni_bind (ruleTrailing X)); [apply dressed_trailing|]. intros tc k4. apply uni_ret.
    + apply (uni_bind (parseEntry X f LOWEST)); [apply dressed_entry|]. intros [n [d|]] k3; [apply uni_ret|].
      apply (uni_bind (ruleTrailing X)); [apply dressed_trailing|]. intros tc k4. apply uni_ret.
Qed.

(** ** A whole source *)

(** What a source asks for, in order: a report, or a definition. *)
Inductive event : Type :=
| Told (d : diag)
| Defines (w : bytes) (at_ : position) (v : node).

(** Carrying this out in an environment: what is defined already is reported
    at the place of the new definition, with the place of the old one. *)
Fixpoint carry (evs : list event) (e : environment) : res (environment * list diag) :=
  match evs with
  | [] => Ok (e, [])
  | Told d :: r => '(e', ds) <- carry r e;; Ok (e', d :: ds)
  | Defines w a v :: r =>
    match assoc w e with
    | None => carry r (e ++ [(w, v)])
    | Some old => s <- node_start old;; '(e', ds) <- carry r e;; Ok (e', mkDiag a a (MExisting w (pLine s) (pColumn s)) :: ds)
    end
  end.

(** The reports of the checks made at the end. *)
Definition checked (e : environment) (tk : list task) : list diag :=
  flat_map (fun t => match runTask e t with Some d => [d] | None => [] end) tk.

Definition looped (evs : list event) (fin : res (list node * core)) (ds : list diag) (e : environment) : res (list node * parser) :=
  '(e', new) <- carry evs e;; '(rules, k) <- fin;; Ok (rules, put k (ds ++ new) e').

Lemma loop_events : forall X rf f acc k, exists evs fin, forall ds e, fileLoop X rf f acc (put k ds e) = looped evs fin ds e.
Proof.
  intros X rf. induction f as [|f IH]; intros acc k; simpl; unfold curr; cbn [cur put]; (destruct (teq (tTok (kCur k)) EOF);
    [exists [], (Ok (acc, k)); intros ds e; unfold looped; cbn [carry rbind]; now rewrite app_nil_r|]).
  - exists [], NoFuel. reflexivity.
  - destruct (rule_out X rf k) as [o Ho].
    destruct o as [[[[n d] reg] k1]| | |]; [|exists [], Panic; intros ds e; rewrite Ho; reflexivity|exists [], Hang; intros ds e; rewrite Ho; reflexivity|exists [], NoFuel; intros ds e; rewrite Ho; reflexivity].
    set (acc' := if notNil n then acc ++ [n] else acc).
    assert (REST : exists evs fin, forall ds e, (p2 <- pnext X (put k1 ds e);; fileLoop X rf f acc' p2) = looped evs fin ds e).
    { unfold pnext, put. cbn [lx cur pk perrors env tasks]. destruct (scan X (kLx k1)) as [[t l]| | |]; cbn [rbind].
      - apply (IH acc' (mkCore l (kPk k1) t (kTasks k1))).
      - exists [], Panic. reflexivity.
      - exists [], Hang. reflexivity.
      - exists [], NoFuel. reflexivity. }
    destruct REST as (evs & fin & HR).
    assert (REST : forall ds e, (p2 <- pnext X (handle (put k1 ds e) d);; fileLoop X rf f acc' p2) = looped (match d with Some x => Told x :: evs | None => evs end) fin ds e).
    { intros ds e. destruct d as [x|]; cbn [handle]; [|apply HR]. unfold addDiag. change (mkParser _ _ _ _ _ _) with (put k1 (ds ++ [x]) e).
      rewrite HR. unfold looped. cbn [carry]. destruct (carry evs e) as [[e' new]| | |]; cbn [rbind]; auto. now rewrite <- app_assoc. }
    set (evs1 := match d with Some x => Told x :: evs | None => evs end) in *.
    exists (match reg with Some (i, v) => Defines (iName i) (iPos i) v :: evs1 | None => evs1 end), fin.
    intros ds e. rewrite Ho. unfold ruled. cbn [rbind]. destruct reg as [[i v]|]; cbn [rbind]; [|apply REST].
    unfold registerRule, add. cbn [env put]. unfold looped. cbn [carry]. unfold exists_. destruct (assoc (iName i) e) as [old|] eqn:EA; cbn [rbind].
    + unfold setEnv. cbn [env put lx cur pk perrors tasks]. unfold get. rewrite EA. destruct (node_start old) as [s| | |]; cbn [rbind]; auto.
      unfold addDiag. cbn [env put lx cur pk perrors tasks]. change (mkParser _ _ _ _ _ _) with (put k1 (ds ++ [err (MExisting (iName i) (pLine s) (pColumn s)) (iPos i) (iPos i)]) e).
      rewrite REST. unfold looped. destruct (carry evs1 e) as [[e' new]| | |]; cbn [rbind]; auto. now rewrite <- app_assoc.
    + unfold setEnv. cbn [env put lx cur pk perrors tasks rbind]. change (mkParser _ _ _ _ _ _) with (put k1 ds (e ++ [(iName i, v)])). rewrite REST. reflexivity.
Qed.

Lemma tasks_list : forall tk e k ds e', fold_left (fun q t => handle q (runTask e t)) tk (put k ds e') = put k (ds ++ checked e tk) e'.
Proof.
  induction tk as [|t tk IH]; intros e k ds e'; cbn [fold_left checked flat_map]; [now rewrite app_nil_r|]. fold (checked e tk).
  destruct (runTask e t) as [d|]; cbn [handle]; [|apply IH]. unfold addDiag. cbn [put lx cur pk perrors env tasks].
  change (mkParser _ _ _ _ _ _) with (put k (ds ++ [d]) e'). rewrite IH, <- app_assoc. reflexivity.
Qed.

(** What ParseFile makes of the requests of a source in an environment. *)
Definition outcome (evs : list event) (fin : res (list node * core)) (e : environment) : res (fileResult * parser) :=
  '(e', ds) <- carry evs e;; '(rules, k) <- fin;;
  let all := ds ++ checked e' (kTasks k) in
  Ok ((Some (NCDDL zeroPos rules), collect all), put k all e').

Theorem source_events : forall X fuel s,
  (exists k, forall e, parseSource X fuel s e = Ok ((None, None), put k [] e)) \/
  (exists evs fin, forall e, parseSource X fuel s e = outcome evs fin e).
Proof.
  intros X fuel s. unfold parseSource, newParser, pnext. cbn [lx cur pk perrors env tasks].
  destruct (scan X (newLexer s)) as [[t l]| | |]; cbn [rbind lx cur pk perrors env tasks];
    [|right; exists [], Panic; reflexivity|right; exists [], Hang; reflexivity|right; exists [], NoFuel; reflexivity].
  destruct (scan X l) as [[t2 l2]| | |]; cbn [rbind]; [|right; exists [], Panic; reflexivity|right; exists [], Hang; reflexivity|right; exists [], NoFuel; reflexivity].
  set (k := mkCore l2 t t2 []). unfold parseFile. cbn [lx]. destruct (errors l2) as [|x xs]; [right|left; exists k; reflexivity].
  destruct (loop_events X fuel fuel [] k) as (evs & fin & H). exists evs, fin. intros e. change (mkParser _ _ _ _ _ _) with (put k [] e).
  rewrite H. unfold looped, outcome. destruct (carry evs e) as [[e' ds]| | |]; cbn [rbind]; auto. destruct fin as [[rules k']| | |]; cbn [rbind]; auto.
  unfold runTasks. cbn [app env tasks put]. change (mkParser _ _ _ _ _ _) with (put k' ds e'). rewrite tasks_list. reflexivity.
Qed.
