(** The parser sees only the tokens: two parsers whose lexers yield the same
    tokens behave alike. *)
From Coq Require Import String.
From Verif Require Import Base Utf8 Token Strconv Ext Lexer Ast Env Diag Parser.
Open Scope string_scope.
Open Scope list_scope.
Open Scope Z_scope.

(** The tokens of [n] Scan calls, without the lexer. *)
Definition seen (X : Ext) (n : nat) (l : lexer) : res (list tokInfo) :=
  '(ts, _) <- scans X n l;; Ok ts.

(** No number of Scan calls tells the lexers apart. *)
Definition sameTokens (X : Ext) (l l' : lexer) : Prop := forall n, seen X n l = seen X n l'.

Definition relRes {A} (R : A -> A -> Prop) (a b : res A) : Prop :=
  match a, b with
  | Ok x, Ok y => R x y
  | Panic, Panic | Hang, Hang | NoFuel, NoFuel => True
  | _, _ => False
  end.

Lemma rel_bind : forall {A B} (R : A -> A -> Prop) (S : B -> B -> Prop) a b f g,
  relRes R a b -> (forall x y, R x y -> relRes S (f x) (g y)) -> relRes S (rbind a f) (rbind b g).
Proof. intros A B R S a b f g H HF. destruct a, b; simpl in *; auto; contradiction. Qed.

Lemma same_scan : forall X l l', sameTokens X l l' ->
  relRes (fun a b => fst a = fst b /\ sameTokens X (snd a) (snd b)) (scan X l) (scan X l').
Proof.
  intros X l l' H. pose proof (H 1%nat) as H1. unfold seen in H1. cbn [scans] in H1.
  destruct (scan X l) as [[t l1]| | |] eqn:E1, (scan X l') as [[t' l1']| | |] eqn:E2; simpl in H1; try discriminate; simpl; auto.
  inversion H1; subst. split; auto. intros n. specialize (H (S n)). unfold seen in *. cbn [scans] in H. rewrite E1, E2 in H.
  cbn [rbind] in H. destruct (scans X n l1) as [[a x]| | |], (scans X n l1') as [[b y]| | |]; simpl in *; congruence.
Qed.

(** Everything but the lexers agrees, and those cannot be told apart. *)
Inductive twin (X : Ext) : parser -> parser -> Prop :=
| Twin : forall l l' c k ds e tk, sameTokens X l l' -> twin X (mkParser l c k ds e tk) (mkParser l' c k ds e tk).

Definition twinPair (X : Ext) {A} (a b : A * parser) : Prop := fst a = fst b /\ twin X (snd a) (snd b).
Definition twinSum (X : Ext) {A B} (a b : (A * parser) + (B * parser)) : Prop :=
  match a, b with inl x, inl y => twinPair X x y | inr x, inr y => twinPair X x y | _, _ => False end.

Ltac flat := unfold curr, pos, currLit, peekTok, peekPos, peekLit, addTask, addDiag, setEnv, parseInnerComment, peCurr in *;
  cbn [lx cur pk perrors env tasks fst snd] in *.

Section Twins.
  Variable X : Ext.
  Notation tw := (twin X).

  Lemma pnext_twin : forall p q, tw p q -> relRes tw (pnext X p) (pnext X q).
  Proof.
    intros p q H. destruct H. unfold pnext. flat. eapply rel_bind; [apply same_scan; eauto|].
    intros [t a] [t' b] [E HS]. simpl in E, HS. subst. simpl. constructor; auto.
  Qed.

  Definition twinFn (f g : entryFn) : Prop := forall prec p q, tw p q -> relRes (twinPair X) (f prec p) (g prec q).

  Ltac unpair :=
    repeat match goal with
    | H : twinPair X ?a ?b |- _ => is_var a; is_var b; destruct a, b, H; cbn [fst snd] in *; subst
    | H : twinSum X ?a ?b |- _ => is_var a; is_var b; destruct a, b; cbn [twinSum] in H; try contradiction
    | a : (_ * _)%type |- _ => destruct a
    | H : tw ?a ?b |- _ => is_var a; is_var b; destruct H
    end.
  Ltac ret := cbn [relRes twinSum]; unfold twinPair; cbn [fst snd]; try split; try reflexivity; try (constructor; assumption).
  Ltac tstep :=
    flat;
    match goal with
    | HP : twinFn _ _ |- relRes _ (rbind (?pe _ _) _) (rbind (?pe' _ _) _) => eapply rel_bind; [apply HP; constructor; assumption|intros ? ? ?; unpair]
    | |- relRes _ (rbind (pnext X _) _) (rbind (pnext X _) _) => eapply rel_bind; [apply pnext_twin; constructor; assumption|intros ? ? ?; unpair]
    | |- relRes _ (rbind ?a _) (rbind ?a _) => let E := fresh "E" in destruct a eqn:E; cbn [rbind]; try exact I
    | |- relRes _ (match ?x with _ => _ end) (match ?x with _ => _ end) => let E := fresh "E" in destruct x eqn:E
    | |- relRes _ Panic Panic => exact I
    | |- relRes _ (Ok _) (Ok _) => solve [ret]
    end.
  Ltac tsolve := repeat tstep.

  Lemma commentLoop_twin : forall f acc p q, tw p q -> relRes (twinPair X) (commentLoop X f acc p) (commentLoop X f acc q).
  Proof.
    induction f as [|f IH]; intros acc p q H; destruct H; simpl; flat; destruct (teq (tTok k) COMMENT); try exact I; try (split; auto; constructor; auto; fail).
    eapply rel_bind; [apply pnext_twin; constructor; auto|]. intros p1 q1 HT. pose proof HT as HT'. destruct HT. apply IH. auto.
  Qed.

  Lemma parseComment_twin : forall f p q, tw p q -> relRes (twinPair X) (parseComment X f p) (parseComment X f q).
  Proof.
    intros f p q H. unfold parseComment. eapply rel_bind.
    - replace (parseInnerComment q) with (parseInnerComment p) by (destruct H; reflexivity). apply commentLoop_twin. exact H.
    - intros x y HP. unpair. tsolve.
  Qed.

  Lemma entryTrailing_twin : forall p q, tw p q -> relRes (twinPair X) (entryTrailing X p) (entryTrailing X q).
  Proof. intros p q H. destruct H. unfold entryTrailing. tsolve. Qed.

  Lemma expectPeek_twin : forall t p q, tw p q -> relRes tw (expectPeek X t p) (expectPeek X t q).
  Proof.
    intros t p q H. destruct H. unfold expectPeek. flat. destruct (teq (tTok k) t); [apply pnext_twin|]; constructor; auto.
  Qed.

  Lemma parseTagHead_twin : forall p q, tw p q -> relRes (twinSum X) (parseTagHead X p) (parseTagHead X q).
  Proof.
    intros p q H. destruct H. unfold parseTagHead. flat.
    destruct (tTok k) eqn:E; try (ret; fail).
    - tsolve.
    - eapply rel_bind; [apply pnext_twin; constructor; assumption|intros ? ? ?; unpair]. unfold parseFloatTag. flat.
      destruct (splitDot (tLit c0)) as [|a [|b [|? ?]]]; try (ret; fail).
      destruct (parseUint a); try (ret; fail). destruct (parseUint b); ret.
  Qed.

  Lemma occUpper_twin : forall p q, tw p q -> relRes (twinSum X) (occUpper X p) (occUpper X q).
  Proof.
    intros p q H. destruct H. unfold occUpper, parseUintType, parseUintLiteral. flat.
    destruct (teq (tTok k) INT && isLiteral (tTok k) (tLit k)); eapply rel_bind; try (apply pnext_twin; constructor; assumption); intros ? ? ?; unpair; flat.
    - destruct (isLiteral (tTok c0) (tLit c0)); cbn [rbind]; try (ret; fail). destruct (parseUint (tLit c0)); cbn [rbind]; ret.
    - ret.
  Qed.

  Lemma occLower_twin : forall n p q, tw p q -> occLower n p = occLower n q.
  Proof. intros n p q H. destruct H. reflexivity. Qed.

  Lemma parseOccurrence_twin : forall pe pe' n p q, twinFn pe pe' -> tw p q ->
    relRes (twinPair X) (parseOccurrence X pe n p) (parseOccurrence X pe' n q).
  Proof.
    intros pe pe' n p q HP H. unfold parseOccurrence. rewrite (occLower_twin n p q H).
    destruct (occLower n q) as [[u|d]| | |]; cbn [rbind]; try exact I.
    - eapply rel_bind; [apply occUpper_twin; exact H|]. intros x y HT. unpair; tsolve.
    - destruct H. tsolve.
  Qed.

  Lemma runLed_twin : forall pe pe' k left p q, twinFn pe pe' -> tw p q ->
    relRes (twinPair X) (runLed X pe k left p) (runLed X pe' k left q).
  Proof.
    intros pe pe' k left p q HP H. destruct k; cbn [runLed]; try (apply parseOccurrence_twin; auto; fail); destruct H.
    - unfold parseColon. flat. destruct left; tsolve;
        (eapply rel_bind; [apply entryTrailing_twin; constructor; auto|intros ? ? ?; unpair; tsolve]).
    - unfold parseTypeChoice. tsolve.
    - unfold parseComparatorOp. flat. destruct (typeOf left) as [[]|]; tsolve.
    - unfold parseSizeOperator. flat. destruct (typeOf left) as [[]|]; tsolve.
    - unfold parseRegexp. flat. destruct (typeOf left) as [[]|]; tsolve.
    - unfold parseBits. tsolve.
    - unfold parseBound, parseLitBound, parseIdentBound. flat. destruct left; tsolve.
    - unfold parseComma. tsolve.
  Qed.

  Lemma bracketLoop_twin : forall pe pe' stop keep, twinFn pe pe' -> forall f acc p q, tw p q ->
    relRes (twinPair X) (bracketLoop X pe stop keep f acc p) (bracketLoop X pe' stop keep f acc q).
  Proof.
    intros pe pe' stop keep HP. induction f as [|f IH]; intros acc p q H; destruct H; simpl; flat; (destruct (teq (tTok c) stop); [ret|]); [exact I|].
    eapply rel_bind; [apply HP; constructor; assumption|]. intros [[e1 d] p2] [[e2 d2] q2] [E HT2]. cbn [fst snd] in *. inversion E; subst.
    destruct d2; [split; auto|]. eapply rel_bind; [apply pnext_twin; exact HT2|]. intros p1 q1 HT. apply IH; auto.
  Qed.

  Lemma runNud_twin : forall pe pe' f n p q, twinFn pe pe' -> tw p q ->
    relRes (twinPair X) (runNud X pe f n p) (runNud X pe' f n q).
  Proof.
    intros pe pe' f n p q HP H. destruct n; cbn [runNud]; try (apply parseComment_twin; auto; fail);
      try (unfold parsePrefixOccurrence; replace (pos q) with (pos p) by (destruct H; reflexivity); apply parseOccurrence_twin; auto; fail);
      pose proof H as H0; destruct H.
    1: unfold parseIdentifier; tsolve. 1: unfold parseNamedIdentifier; flat; destruct (tLit c) as [|z w]; [exact I|]; destruct (z =? 36); ret.
    1: tsolve. 1: unfold parseBooleanLiteral; tsolve. 1, 2: tsolve. 1: unfold parseFloatType, parseFloatLiteral; tsolve.
    1: unfold parseUintType, parseUintLiteral; tsolve. 1: unfold parseIntegerType, parseIntegerLiteral; tsolve. 1, 2, 3, 4: tsolve.
    all: try (unfold parseMap, parseGroup, parseArray; eapply rel_bind; [apply pnext_twin; exact H0|]; intros p1 q1 HT;
              eapply rel_bind; [apply bracketLoop_twin; auto|]; intros; unpair; tsolve; fail).
    - unfold parseOptional. tsolve.
    - unfold parseUnwrap. tsolve.
    - unfold parseTag. eapply rel_bind; [apply parseTagHead_twin; exact H0|]. intros x y HT. unpair; tsolve.
      eapply rel_bind; [apply expectPeek_twin; constructor; auto|]. intros p5 q5 HT5. destruct HT5. tsolve.
    - unfold parseEnumeration. tsolve.
  Qed.

  Lemma ledLoop_twin : forall pe pe' prec, twinFn pe pe' -> forall f e p q, tw p q ->
    relRes (twinPair X) (ledLoop X pe f prec e p) (ledLoop X pe' f prec e q).
  Proof.
    intros pe pe' prec HP. induction f as [|f IH]; intros e p q H; pose proof H as H0; destruct H; simpl; flat;
      (destruct (negb (teq (tTok c) COMMA) && (prec <? precedence (tTok k))); [|ret]); (destruct (ledFor (tTok k)); [|ret]); [exact I|].
    eapply rel_bind; [apply pnext_twin; exact H0|]. intros p1 q1 HT. eapply rel_bind; [apply runLed_twin; eauto|].
    intros [[e1 d] p2] [[e2 d2] q2] [E HT2]. cbn [fst snd] in *. inversion E; subst. destruct d2; [split; auto|]. apply IH; auto.
  Qed.

  Lemma parseEntry_twin : forall f, twinFn (parseEntry X f) (parseEntry X f).
  Proof.
    induction f as [|f IH]; intros prec p q H; [exact I|]. simpl. eapply rel_bind.
    - instantiate (1 := tw). unfold skipComments. replace (curr q) with (curr p) by (destruct H; reflexivity).
      destruct (teq (curr p) COMMENT); [|exact H]. eapply rel_bind; [apply parseComment_twin; exact H|].
      intros [[a b] c] [[a' b'] c'] [_ HT]. apply pnext_twin. exact HT.
    - intros p1 q1 HT. replace (chooseNud q1) with (chooseNud p1) by (destruct HT; reflexivity).
      destruct (chooseNud p1); [|destruct HT; tsolve]. eapply rel_bind; [apply runNud_twin; eauto|].
      intros [[e1 d] p2] [[e2 d2] q2] [E HT2]. cbn [fst snd] in *. inversion E; subst. destruct d2; [split; auto|]. apply ledLoop_twin; auto.
  Qed.

  Lemma ruleTrailing_twin : forall p q, tw p q -> relRes (twinPair X) (ruleTrailing X p) (ruleTrailing X q).
  Proof. intros p q H. destruct H. unfold ruleTrailing. tsolve. Qed.

  Lemma registerRule_twin : forall i n p q, tw p q -> relRes tw (registerRule i n p) (registerRule i n q).
  Proof.
    intros i n p q H. destruct H. unfold registerRule. flat. destruct (add e (iName i) n) as [e' []]; flat; [|constructor; auto].
    destruct (node_start (get e' (iName i))); cbn [rbind]; try exact I. flat. constructor; auto.
  Qed.

  Lemma parseRule_twin : forall f p q, tw p q -> relRes (twinPair X) (parseRule X f p) (parseRule X f q).
  Proof.
    intros f p q H. unfold parseRule. replace (curr q) with (curr p) by (destruct H; reflexivity).
    replace (pos q) with (pos p) by (destruct H; reflexivity). replace (currLit q) with (currLit p) by (destruct H; reflexivity).
    destruct (curr p); try (split; auto; fail); [now apply parseComment_twin|].
    eapply rel_bind; [apply pnext_twin; exact H|]. intros p1 q1 HT. replace (curr q1) with (curr p1) by (destruct HT; reflexivity).
    destruct (curr p1); try (split; auto; fail);
      (eapply rel_bind; [apply pnext_twin; exact HT|]; intros p2 q2 HT2; replace (curr q2) with (curr p2) by (destruct HT2; reflexivity);
       eapply rel_bind; [apply parseEntry_twin; exact HT2|]; intros [[e1 d] p3] [[e2 d2] q3] [E HT3]; cbn [fst snd] in *; inversion E; subst;
       destruct d2; [split; auto|]; eapply rel_bind; [apply ruleTrailing_twin; exact HT3|]; intros [tc p4] [tc2 q4] [E4 HT4]; cbn [fst snd] in *; subst).
    - eapply rel_bind; [apply registerRule_twin; exact HT4|]. intros p5 q5 HT5. split; auto.
    - split; auto.
    - split; auto.
  Qed.

  Lemma fileLoop_twin : forall rf f acc p q, tw p q -> relRes (twinPair X) (fileLoop X rf f acc p) (fileLoop X rf f acc q).
  Proof.
    intros rf. induction f as [|f IH]; intros acc p q H; simpl; (replace (curr q) with (curr p) by (destruct H; reflexivity));
      (destruct (teq (curr p) EOF); [split; auto|]); [exact I|].
    eapply rel_bind; [apply parseRule_twin; exact H|]. intros [[e1 d] p1] [[e2 d2] q1] [E HT]. cbn [fst snd] in *. inversion E; subst.
    eapply rel_bind; [apply pnext_twin; destruct HT, d2; constructor; auto|]. intros p2 q2 HT2. apply IH; auto.
  Qed.

  Lemma runTasks_twin : forall p q, tw p q -> tw (runTasks p) (runTasks q).
  Proof.
    intros p q H. unfold runTasks. assert (E : env q = env p /\ tasks q = tasks p) by (destruct H; auto). destruct E as [-> ->].
    generalize (tasks p) as tk. generalize (env p) as e0. intros e0 tk. revert p q H.
    induction tk as [|t tk IH]; intros p q H; simpl; auto. apply IH. destruct H, (runTask e0 t); constructor; auto.
  Qed.

  Theorem parseSource_twin : forall fuel s s' e, sameTokens X (newLexer s) (newLexer s') ->
    (forall t l t' l', scans X 2 (newLexer s) = Ok (t, l) -> scans X 2 (newLexer s') = Ok (t', l') -> errors l = [] /\ errors l' = []) ->
    relRes (twinPair X) (parseSource X fuel s e) (parseSource X fuel s' e).
  Proof.
    intros fuel s s' e HS HE. unfold parseSource.
    assert (HN : relRes tw (newParser X (newLexer s) e) (newParser X (newLexer s') e)).
    { unfold newParser. eapply rel_bind; [apply pnext_twin; constructor; auto|]. intros p q HT. apply pnext_twin; auto. }
    assert (HK : forall s0 p, newParser X (newLexer s0) e = Ok p -> exists t, scans X 2 (newLexer s0) = Ok (t, lx p)).
    { intros s0 p HP. unfold newParser, pnext in HP. cbn [lx pk perrors env tasks] in HP. simpl scans.
      destruct (scan X (newLexer s0)) as [[a b]| | |]; try discriminate. cbn [rbind lx pk perrors env tasks] in *.
      destruct (scan X b) as [[a' b']| | |]; try discriminate. cbn [rbind] in *. inversion HP; subst. eexists. reflexivity. }
    destruct (newParser X (newLexer s) e) as [p| | |] eqn:E1, (newParser X (newLexer s') e) as [q| | |] eqn:E2; simpl in HN; try contradiction; cbn [rbind]; try exact I.
    destruct (HK _ _ E1) as [t K1], (HK _ _ E2) as [t' K2]. destruct (HE _ _ _ _ K1 K2) as [EA EB].
    unfold parseFile. rewrite EA, EB. eapply rel_bind; [apply fileLoop_twin; exact HN|].
    intros [r1 p1] [r2 q1] [E HT]. cbn [fst snd] in *. subst. pose proof (runTasks_twin _ _ HT) as HT2.
    split; [|exact HT2]. cbn [fst]. replace (perrors (runTasks q1)) with (perrors (runTasks p1)) by (destruct HT2; reflexivity). reflexivity.
  Qed.
End Twins.
