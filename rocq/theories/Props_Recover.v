(** Property C99: how the parser finds its way back after an error. *)
From Coq Require Import String.
From Verif Require Import Base Utf8 Token Ext Strconv Lexer LexSpec LexSpec2 LexSpec3 LexerProofs LexWords LexOne LexSeq LexHang
  Ast Env Diag Parser ParseSpec ParseSound ParseStream ParseFacts ParseTop ParseSource ParseLoop ParseFrame Props_Lexer Props_LexFull Props_Says Props_Append Props_Parser ParseTwin ParseLayout Props_Layout Props_Concat.
Open Scope string_scope.
Open Scope list_scope.
Open Scope Z_scope.

(** ** Specification *)

(** The three signs between a name and its value. *)
Definition assigns (t : token) : Prop := t = ASSIGN \/ t = TYPE_CHOICE_ASSIGN \/ t = GROUP_CHOICE_ASSIGN.

(** Tokens that are a whole value: keywords of the prelude and literals. *)
Definition sole (t : token) : Prop :=
  match t with
  | BOOL | FALSE | TRUE | TSTR | TEXT | TEXT_LITERAL | FLOAT | FLOAT16 | FLOAT32 | FLOAT64 | UINT | INT | NINT | BSTR | BYTES | NULL | NIL => True
  | _ => False
  end.

(** Values of one token that are always read: types of the prelude and text. *)
Definition plain (t : tokInfo) : Prop :=
  match tTok t with
  | BOOL | TSTR | TEXT | TEXT_LITERAL | NINT | BSTR | BYTES | NULL | NIL => True
  | UINT => tLit t = str "uint"
  | INT => tLit t = str "int"
  | FLOAT => tLit t = str "float"
  | FLOAT16 => tLit t = str "float16"
  | FLOAT32 => tLit t = str "float32"
  | FLOAT64 => tLit t = str "float64"
  | _ => False
  end.

(** What may follow such a value. *)
Definition ending (t : token) : Prop := t = IDENT \/ t = EOF.

(** The lexer comes to the end of [s]. *)
Definition lexes (X : Ext) (s : bytes) : Prop := exists n ts t l, scans X n (newLexer s) = Ok (ts ++ [t], l) /\ tTok t = EOF.

(** The tokens [= c1 b2 = c2 b3 = c3], where all but the signs are names: rules that stand for
    other rules, from the sign of the first on. *)
Inductive Aliases : list tokInfo -> Prop :=
| as_one : forall e c, assigns (tTok e) -> tTok c = IDENT -> Aliases [e; c]
| as_more : forall e c b ts, assigns (tTok e) -> tTok c = IDENT -> tTok b = IDENT -> Aliases ts -> Aliases (e :: c :: b :: ts).

(** ** Reading a value never goes past such a sign *)

Section Proof.
Variable X : Ext.

Definition notBar (t : token) : Prop := ~ assigns t.

(** From [p] to [q] only other tokens were passed. *)
Definition Over (p q : parser) : Prop := forall ts f, Toks X p ts f ->
  exists sk ts', ts = sk ++ ts' /\ Forall (fun t => notBar (tTok t)) sk /\ Toks X q ts' f.

Lemma over_refl : forall p, Over p p.
Proof. intros p ts f H. exists [], ts. auto. Qed.

Lemma over_trans : forall p q r, Over p q -> Over q r -> Over p r.
Proof.
  intros p q r H1 H2 ts f H. destruct (H1 _ _ H) as (a & b & -> & F1 & T1). destruct (H2 _ _ T1) as (c & d & -> & F2 & T2).
  exists (a ++ c), d. rewrite app_assoc. split; auto. split; auto. apply Forall_app. auto.
Qed.

Lemma over_toks : forall p q, lx q = lx p -> cur q = cur p -> pk q = pk p -> Over p q.
Proof.
  intros p q E1 E2 E3 ts f [H1 H2 H3 H4 H5 H6]. exists [], ts. split; auto. split; auto. split; auto; congruence.
Qed.

(** What a nud or led does. *)
Definition okV (p : parser) (r : pres) : Prop := ok r (fun a => let '(n, d, q) := a in Over p q /\ (d = None -> notBar (curr q))).
Definition fnV (pe : entryFn) : Prop := forall prec p, okV p (pe prec p).

Lemma next_V : forall p (Q : parser -> Prop), notBar (curr p) -> (forall q, Over p q -> curr q = peekTok p -> Q q) -> ok (pnext X p) Q.
Proof.
  intros p Q N HQ q E. apply HQ.
  - intros ts f H. destruct (pnext_ok _ _ _ _ _ H E) as [K _]. destruct ts as [|t ts]; [exists [], []; auto|].
    exists [t], ts. split; auto. split; [|exact K]. constructor; auto. unfold curr in N. now rewrite (toks_cur _ _ _ _ _ H) in N.
  - unfold pnext in E. destruct (scan X (lx p)) as [[t l]| | |]; try discriminate. injection E as <-. reflexivity.
Qed.

Lemma pe_V : forall pe p (Q : node * option diag * parser -> Prop), fnV pe ->
  (forall n d q, Over p q -> (d = None -> notBar (curr q)) -> Q (n, d, q)) -> ok (peCurr pe p) Q.
Proof. intros pe p Q HP HQ [[n d] q] E. destruct (HP _ _ _ E) as (K1 & K2). now apply HQ. Qed.

Ltac nb := solve [ assumption
  | match goal with H : ?x = ?x -> _ |- _ => exact (H eq_refl) end
  | match goal with E : curr ?p = _ |- notBar (curr ?p) => rewrite E; intros [K|[K|K]]; discriminate K end
  | match goal with E : curr ?q = peekTok ?p, F : peekTok ?p = _ |- notBar (curr ?q) => rewrite E, F; intros [K|[K|K]]; discriminate K end ].
Ltac ov := solve [ assumption | apply over_refl
  | eapply over_trans; [eassumption|first [ov | apply over_toks; reflexivity]]
  | apply over_toks; reflexivity ].

Ltac vstep :=
  match goal with
  | |- okV _ _ => unfold okV
  | |- ok (rbind _ _) _ => apply ok_bind
  | |- ok (pnext X ?p) _ => apply (next_V p); [nb|intros]
  | HP : fnV ?pe |- ok (peCurr ?pe ?p) _ => apply (pe_V pe p _ HP); intros
  | |- ok (Ok _) _ => apply ok_ret
  | |- ok Panic _ => intros ? ?; discriminate
  | |- ok Hang _ => intros ? ?; discriminate
  | |- ok NoFuel _ => intros ? ?; discriminate
  | |- ok (node_start _) _ => apply ok_any
  | |- ok (node_end _) _ => apply ok_any
  | |- ok (wrapBadNode _) _ => apply ok_any
  | |- ok (if teq ?a ?b then _ else _) _ => let E := fresh "E" in destruct (teq a b) eqn:E; [apply teq_true in E|]
  | |- ok (match ?x with _ => _ end) _ => destruct x
  | |- ok (let '(_, _) := ?x in _) _ => destruct x
  | |- _ /\ _ => split; [ov|first [discriminate | intros _; nb]]
  | |- forall _, _ => intros
  end.
Ltac vsolve := repeat (cbv beta iota; vstep).

Lemma commentLoop_V : forall f acc p, notBar (curr p) -> ok (commentLoop X f acc p) (fun a => Over p (snd a) /\ notBar (curr (snd a))).
Proof.
  induction f as [|f IH]; intros acc p H; cbn [commentLoop]; destruct (teq (peekTok p) COMMENT) eqn:E; try (intros ? ?; discriminate);
    try (apply ok_ret; cbn [snd]; split; auto; apply over_refl).
  apply ok_bind. apply next_V; auto. intros q O C. apply teq_true in E. assert (N : notBar (curr q)) by nb. eapply ok_mono; [exact (IH _ q N)|].
  intros [l q'] [K1 K2]. cbn [snd] in *. split; auto. eapply over_trans; eauto.
Qed.

Lemma parseComment_V2 : forall f p, notBar (curr p) -> ok (parseComment X f p) (fun a => let '(n, d, q) := a in Over p q /\ notBar (curr q)).
Proof.
  intros f p H. unfold parseComment. apply ok_bind. eapply ok_mono; [apply commentLoop_V; auto|]. intros [l q] [K1 K2]. cbn [snd] in *.
  destruct l as [|c [|c2 l]]; apply ok_ret; auto.
Qed.

Lemma parseComment_V : forall f p, notBar (curr p) -> okV p (parseComment X f p).
Proof.
  intros f p H. unfold parseComment. apply ok_bind. eapply ok_mono; [apply commentLoop_V; auto|]. intros [l q] [K1 K2]. cbn [snd] in *.
  destruct l as [|c [|c2 l]]; apply ok_ret; auto.
Qed.

Lemma bracketLoop_V : forall pe stop keep, fnV pe -> ~ assigns stop -> forall f acc p,
  ok (bracketLoop X pe stop keep f acc p) (fun a => let '(l, d, q) := a in Over p q /\ (d = None -> notBar (curr q))).
Proof.
  intros pe stop keep HP HS. induction f as [|f IH]; intros acc p; cbn [bracketLoop]; destruct (teq (curr p) stop) eqn:E; try (apply teq_true in E); try (intros ? ?; discriminate);
    try (apply ok_ret; split; [apply over_refl|intros _; now rewrite E]).
  vsolve. eapply ok_mono; [apply IH|]. intros [[l d] q'] [K1 K2]. split; auto. ov.
Qed.

Lemma occUpper_V : forall p, notBar (curr p) -> ok (occUpper X p) (fun r => match r with inl (_, q) | inr (_, q) => Over p q end).
Proof.
  intros p H. unfold occUpper, parseUintType, parseUintLiteral. destruct (teq (peekTok p) INT && isLiteral (peekTok p) (peekLit p)); apply ok_bind; apply next_V; auto; intros q O _; [|apply ok_ret; auto].
  apply ok_bind. destruct (isLiteral (curr q) (currLit q)); [destruct (parseUint (currLit q))|]; apply ok_ret; apply ok_ret; auto.
Qed.

Lemma parseOccurrence_V : forall pe left p, fnV pe -> notBar (curr p) -> okV p (parseOccurrence X pe left p).
Proof.
  intros pe left p HP H. unfold parseOccurrence. apply ok_bind. apply ok_any. intros [u|d]; [|vsolve]. apply ok_bind. eapply ok_mono; [apply occUpper_V; auto|]. intros [[u' q]|[d q]] K; vsolve.
Qed.

Lemma tagHead_V : forall p, notBar (curr p) -> ok (parseTagHead X p) (fun r => match r with inl (_, _, q) => Over p q /\ notBar (curr q) | inr (_, q) => Over p q end).
Proof.
  intros p H. unfold parseTagHead.
  assert (DEF : ok (Ok (inl (@None uintLit, @None uintLit, p))) (fun r : (option uintLit * option uintLit * parser) + (diag * parser) =>
    match r with inl (_, _, q) => Over p q /\ notBar (curr q) | inr (_, q) => Over p q end)) by (apply ok_ret; split; auto; apply over_refl).
  destruct (peekTok p) eqn:EP; try exact DEF; apply ok_bind; apply next_V; auto; intros q O C; rewrite EP in C.
  - destruct (parseUint (currLit q)); apply ok_ret; auto. split; auto. nb.
  - destruct (parseFloatTag q) as [[a c]|d]; apply ok_ret; auto. split; auto. nb.
Qed.

Lemma tag_V : forall pe p, fnV pe -> notBar (curr p) -> okV p (parseTag X pe p).
Proof.
  intros pe p HP H. unfold parseTag, expectPeek. apply ok_bind. eapply ok_mono; [apply tagHead_V; auto|]. intros [[[a c] q]|[d q]].
  - intros [K1 K2]. vsolve.
  - intros K. vsolve.
Qed.

Lemma runNud_V : forall pe f n p, fnV pe -> chooseNud p = Some n -> okV p (runNud X pe f n p).
Proof.
  intros pe f n p HP HC. assert (NB : notBar (curr p)).
  { intros [K|[K|K]]; unfold chooseNud in HC; rewrite K in HC; discriminate HC. }
  destruct n; cbn [runNud]; try (apply parseComment_V; auto; fail); try (apply tag_V; auto; fail); try (unfold parsePrefixOccurrence; apply parseOccurrence_V; auto; fail);
    try (unfold parseIdentifier, parseNamedIdentifier, parseOptional, parseEnumeration, parseUnwrap, parseBooleanLiteral, parseFloatType, parseFloatLiteral, parseUintType, parseUintLiteral, parseIntegerType, parseIntegerLiteral; vsolve; fail).
  - unfold parseNamedIdentifier. vsolve.
    destruct (z =? 36); (split; [ov|intros _; exact NB]).
  - unfold parseMap. vsolve. eapply ok_mono; [apply bracketLoop_V; [exact HP|intros [K|[K|K]]; discriminate K]|]. intros [[l d] q2] [K1 K2]. apply ok_ret. split; [ov|exact K2].
  - unfold parseGroup. vsolve. eapply ok_mono; [apply bracketLoop_V; [exact HP|intros [K|[K|K]]; discriminate K]|]. intros [[l d] q2] [K1 K2]. apply ok_ret. split; [ov|exact K2].
  - unfold parseArray. vsolve. eapply ok_mono; [apply bracketLoop_V; [exact HP|intros [K|[K|K]]; discriminate K]|]. intros [[l d] q2] [K1 K2]. apply ok_ret. split; [ov|exact K2].
Qed.

Lemma entryTrailing_V : forall p, notBar (curr p) -> ok (entryTrailing X p) (fun a => Over p (snd a) /\ notBar (curr (snd a))).
Proof.
  intros p H. unfold entryTrailing. destruct (teq (peekTok p) COMMENT) eqn:E; [apply teq_true in E; destruct (isSameLineTokens (pos p) (peekPos p))|]; cbn [andb].
  - apply ok_bind. apply next_V; auto. intros q O C. apply ok_ret. cbn [snd]. split; [exact O|nb].
  - apply ok_ret. split; [apply over_refl|exact H].
  - apply ok_ret. split; [apply over_refl|exact H].
Qed.

Lemma runLed_V : forall pe k left p, fnV pe -> notBar (curr p) -> okV p (runLed X pe k left p).
Proof.
  intros pe k left p HP H. destruct k; cbn [runLed]; try (now apply parseOccurrence_V);
    unfold parseColon, parseTypeChoice, parseComparatorOp, parseSizeOperator, parseRegexp, parseBits, parseBound, parseLitBound, parseIdentBound, parseComma.
  - assert (F : forall i, okV p (p1 <- pnext X p;; '(v, d, p2) <- peCurr pe p1;; match d with Some _ => Ok (v, d, p2) | None => '(tc, p3) <- entryTrailing X p2;; Ok (NEntry (pos p) i v tc, None, p3) end)).
    { intros i. vsolve. eapply ok_mono; [apply entryTrailing_V; nb|]. intros [tc q9] [K1 K2]. cbn [snd] in *. vsolve. }
    destruct left; try (apply F); vsolve.
  - vsolve.
  - vsolve.
  - vsolve.
  - vsolve.
  - vsolve.
  - vsolve.
  - vsolve.
Qed.

Lemma ledLoop_V : forall pe prec, fnV pe -> forall f e p, notBar (curr p) -> okV p (ledLoop X pe f prec e p).
Proof.
  intros pe prec HP. induction f as [|f IH]; intros e p H; cbn [ledLoop];
    (destruct (negb (teq (curr p) COMMA) && (prec <? precedence (peekTok p))); [destruct (ledFor (peekTok p)) as [k|] eqn:EK|]); try (vsolve; fail).
  apply ok_bind. apply next_V; auto. intros q O C. assert (N : notBar (curr q)) by (intros [K|[K|K]]; rewrite C in K; rewrite K in EK; discriminate EK).
  apply ok_bind. eapply ok_mono; [apply runLed_V; auto|]. intros [[e1 d] q2] (K1 & K2). destruct d; [vsolve|]. eapply ok_mono; [apply IH; auto|].
  intros [[e2 d2] q3] (K3 & K4). split; auto. ov.
Qed.

Lemma parseEntry_V : forall f, fnV (parseEntry X f).
Proof.
  induction f as [|f IH]; intros prec p; cbn [parseEntry]; [intros ? ?; discriminate|].
  assert (SK : ok (skipComments X f p) (Over p)).
  { unfold skipComments. destruct (teq (curr p) COMMENT) eqn:E; [apply teq_true in E|apply ok_ret; apply over_refl]. apply ok_bind.
    eapply ok_mono; [apply parseComment_V2; nb|]. intros [[n d] q] [K1 K2]. apply next_V; auto. intros. ov. }
  apply ok_bind. eapply ok_mono; [exact SK|]. intros q HQ. destruct (chooseNud q) as [n|] eqn:EN; [|vsolve].
  apply ok_bind. eapply ok_mono; [apply runNud_V; auto|]. intros [[e d] q2] (K1 & K2). destruct d; [vsolve|]. eapply ok_mono; [apply ledLoop_V; auto|].
  intros [[e2 d2] q3] (K3 & K4). split; auto. ov.
Qed.

Lemma ruleTrailing_V : forall p, notBar (curr p) -> ok (ruleTrailing X p) (fun a => Over p (snd a)).
Proof.
  intros p H. unfold ruleTrailing. destruct (teq (peekTok p) COMMENT) eqn:E; [apply teq_true in E; destruct (isSameLineTokens (pos p) (peekPos p))|]; cbn [andb].
  - apply ok_bind. apply next_V; auto. intros q O C. apply ok_bind. apply next_V; [nb|]. intros q' O' _. apply ok_ret. cbn [snd]. ov.
  - apply ok_ret. apply over_refl.
  - apply ok_ret. apply over_refl.
Qed.

(** ** The rule loop *)

Variables (tx te tk ty ta : tokInfo) (W : list tokInfo) (fi : fin).
Hypothesis Hx : tTok tx = IDENT.
Hypothesis He : assigns (tTok te).
Hypothesis Hk : sole (tTok tk).
Hypothesis Hy : tTok ty = IDENT.
Hypothesis Ha : assigns (tTok ta).

(** Where the loop can stand when it has not come to [ty] yet, or has just come to it. *)
Inductive Stage : list tokInfo -> Prop :=
| St1 : forall u, Stage (u ++ tx :: te :: tk :: ty :: ta :: W)
| St2 : Stage (te :: tk :: ty :: ta :: W)
| St3 : Stage (tk :: ty :: ta :: W)
| St4 : Stage (ty :: ta :: W).

Lemma over_stage : forall p q u, Toks X p (u ++ tx :: te :: tk :: ty :: ta :: W) fi -> Over p q -> exists ts, Toks X q ts fi /\ Stage (tl ts).
Proof.
  intros p q u H O. destruct (O _ _ H) as (sk & ts & E & F & T). exists ts. split; auto.
  destruct (app_eq_app _ _ _ _ E) as (l & [[-> ->]|[-> E2]]).
  - destruct l as [|a l]; cbn [app tl]; constructor.
  - destruct l as [|a [|b l]]; cbn [app] in E2.
    + rewrite <- E2. cbn [tl]. constructor.
    + injection E2 as _ E2. rewrite <- E2. cbn [tl]. constructor.
    + injection E2 as _ <- _. exfalso. rewrite !Forall_app in F. destruct F as [_ F]. apply Forall_inv_tail, Forall_inv in F. now apply F.
Qed.

Lemma toks_same : forall p q ts, lx q = lx p -> cur q = cur p -> pk q = pk p -> Toks X p ts fi -> Toks X q ts fi.
Proof. intros p q ts E1 E2 E3 [H1 H2 H3 H4 H5 H6]. split; auto; congruence. Qed.

Lemma next_toks : forall p q ts, Toks X p ts fi -> pnext X p = Ok q -> Toks X q (tl ts) fi.
Proof. intros p q ts H E. now destruct (pnext_ok _ _ _ _ _ H E). Qed.

Lemma register_toks : forall i e p q ts, registerRule i e p = Ok q -> Toks X p ts fi -> Toks X q ts fi.
Proof.
  intros i e p q ts E H. unfold registerRule in E. destruct (add (env p) (iName i) e) as [e' []].
  - destruct (node_start _); try discriminate. injection E as <-. eapply toks_same; [..|exact H]; reflexivity.
  - injection E as <-. eapply toks_same; [..|exact H]; reflexivity.
Qed.

(** One attempt at a rule in the text before. *)
Lemma parseRule_stage : forall rf p u n d q, u <> [] -> Toks X p (u ++ tx :: te :: tk :: ty :: ta :: W) fi -> parseRule X rf p = Ok (n, d, q) ->
  exists ts, Toks X q ts fi /\ Stage (tl ts).
Proof.
  intros rf p u n d q NU H E. unfold parseRule in E. destruct u as [|c u]; [congruence|]. clear NU.
  assert (STOP : exists ts, Toks X p ts fi /\ Stage (tl ts)) by (eapply over_stage; [exact H|apply over_refl]).
  destruct (curr p) eqn:EC; try (injection E as <- <- <-; exact STOP).
  - destruct (parseComment_V rf p ltac:(nb) _ E) as [O _]. eapply over_stage; eauto.
  - destruct (pnext X p) as [p1| | |] eqn:E1; try discriminate. cbn [rbind] in E. pose proof (next_toks _ _ _ H E1) as H1. cbn [app tl] in H1.
    assert (O1 : Over p p1) by (apply (next_V p (fun q => Over p q)); auto; nb).
    assert (STOP1 : exists ts, Toks X p1 ts fi /\ Stage (tl ts)) by (eapply over_stage; [exact H|exact O1]).
    assert (ENT : forall prec p2 r, curr p1 <> IDENT -> pnext X p1 = Ok p2 -> parseEntry X rf prec p2 = Ok r ->
      let '(e, d, p3) := r in (exists ts, Toks X p3 ts fi /\ Stage (tl ts)) /\ (d = None -> forall tc p4, ruleTrailing X p3 = Ok (tc, p4) -> exists ts, Toks X p4 ts fi /\ Stage (tl ts))).
    { intros prec p2 [[e d0] p3] NI E2 E3. destruct u as [|c2 u]; cbn [app] in H1; [exfalso; apply NI; unfold curr; now rewrite (toks_cur _ _ _ _ _ H1)|].
      pose proof (next_toks _ _ _ H1 E2) as H2. cbn [tl] in H2. destruct (parseEntry_V _ _ _ _ E3) as [O3 N3]. split; [eapply over_stage; eauto|].
      intros -> tc p4 E4. pose proof (ruleTrailing_V _ (N3 eq_refl) _ E4) as O4. cbn [snd] in O4. eapply over_stage; [exact H2|]. eapply over_trans; eauto. }
    destruct (curr p1) eqn:EC1; try (injection E as <- <- <-; exact STOP1).
    all: destruct (pnext X p1) as [p2| | |] eqn:E2; try discriminate; cbn [rbind] in E;
      destruct (parseEntry X rf _ p2) as [[[e d0] p3]| | |] eqn:E3; try discriminate; cbn [rbind] in E;
      destruct (ENT _ _ _ ltac:(discriminate) eq_refl E3) as [K1 K2]; destruct d0; [injection E as <- <- <-; exact K1|];
      destruct (ruleTrailing X p3) as [[tc p4]| | |] eqn:E4; try discriminate; cbn [rbind] in E; specialize (K2 eq_refl _ _ eq_refl).
    + destruct (registerRule _ e p4) as [p5| | |] eqn:E5; try discriminate. cbn [rbind] in E. injection E as <- <- <-. destruct K2 as (ts & T & S). exists ts. split; auto. eapply register_toks; eauto.
    + injection E as <- <- <-. exact K2.
    + injection E as <- <- <-. exact K2.
Qed.

(** A value of one token before a name. *)
Lemma parseEntry_sole : forall f prec p t n r, Toks X p (t :: n :: r) fi -> sole (tTok t) -> tTok n = IDENT -> forall a, parseEntry X f prec p = Ok a -> Toks X (snd a) (t :: n :: r) fi.
Proof.
  intros f prec p t n r H HS HN [[e d] q] E. destruct f as [|f]; [discriminate|]. cbn [parseEntry] in E. cbn [snd].
  assert (C : curr p = tTok t) by (unfold curr; now rewrite (toks_cur _ _ _ _ _ H)).
  assert (P : peekTok p = IDENT) by (unfold peekTok; rewrite (toks_pk _ _ _ _ _ H); exact HN).
  assert (SK : skipComments X f p = Ok p) by (unfold skipComments; rewrite C; destruct (tTok t); try contradiction; reflexivity). rewrite SK in E. cbn [rbind] in E.
  unfold chooseNud in E. rewrite C in E.
  assert (LED : forall e0 f0, ledLoop X (parseEntry X f) f0 prec e0 p = Ok (e, d, q) -> q = p).
  { intros e0 f0 L. destruct f0; cbn [ledLoop] in L; rewrite P in L; cbn [ledFor] in L; destruct (negb (teq (curr p) COMMA) && (prec <? precedence IDENT)); injection L as _ _ <-; reflexivity. }
  assert (NUD : forall nd a, nudFor (tTok t) = Some nd -> runNud X (parseEntry X f) f nd p = Ok a -> snd a = p).
  { intros nd a HF HR. destruct (tTok t); try contradiction; injection HF as <-; cbn [runNud] in HR;
      unfold parseBooleanLiteral, parseFloatType, parseFloatLiteral, parseUintType, parseUintLiteral, parseIntegerType, parseIntegerLiteral in HR;
      repeat (match type of HR with
       | Ok _ = Ok _ => injection HR as <-; reflexivity
       | context [match ?x with _ => _ end] => destruct x; cbn [rbind] in HR
       end; try discriminate HR). }
  assert (ND : exists nd, (if teq (tTok t) IDENT && teq (peekTok p) COLON then Some NuIdentifier else nudFor (tTok t)) = Some nd /\ nudFor (tTok t) = Some nd) by (destruct (tTok t); try contradiction; eexists; split; reflexivity).
  destruct ND as (nd & N1 & N2). rewrite N1 in E. destruct (runNud X (parseEntry X f) f nd p) as [[[e1 d1] p1]| | |] eqn:ER; try discriminate. cbn [rbind] in E.
  pose proof (NUD _ _ N2 ER) as K. cbn [snd] in K. subst p1. destruct d1; [injection E as _ _ <-; exact H|]. rewrite (LED _ _ E). exact H.
Qed.

Lemma parseEntry_plain : forall f prec p a, plain (cur p) -> ending (peekTok p) -> parseEntry X f prec p = Ok a -> exists e, a = (e, None, p) /\ e <> NNil.
Proof.
  intros f prec p [[e d] q] HP HN E. destruct f as [|f]; [discriminate|]. cbn [parseEntry] in E. unfold plain in HP. fold (curr p) in HP. fold (currLit p) in HP.
  assert (SK : skipComments X f p = Ok p) by (unfold skipComments; destruct (curr p); try contradiction; reflexivity). rewrite SK in E. cbn [rbind] in E.
  assert (ND : exists nd e1, chooseNud p = Some nd /\ runNud X (parseEntry X f) f nd p = Ok (e1, None, p) /\ e1 <> NNil).
  { unfold chooseNud. destruct (curr p) eqn:EC; try contradiction; eexists _, _; (split; [reflexivity|]); cbn [runNud];
      unfold parseFloatType, parseUintType, parseIntegerType; rewrite ?EC, ?HP; (split; [reflexivity|discriminate]). }
  destruct ND as (nd & e1 & N1 & N2 & N3). rewrite N1, N2 in E. cbn [rbind] in E. exists e1. split; auto.
  destruct f; cbn [ledLoop] in E; destruct HN as [HN|HN]; rewrite HN in E; cbn [ledFor] in E; destruct (negb (teq (curr p) COMMA) && _); congruence.
Qed.

(** The rule of [ty], in the tree and, if it is a definition with a value, in the environment. *)
Definition found (rules : list node) (e : environment) : Prop := exists v tc,
  In (NRule zeroPos (mkIdent (tPos ty) (tLit ty)) v tc) rules /\ (tTok ta = ASSIGN -> v <> NNil -> exists_ e (tLit ty) = true) /\
  (plain (nth 0 W (eofOf fi)) -> ending (tTok (nth 1 W (eofOf fi))) -> v <> NNil).

Lemma parseRule_heads : forall rf p n d q, Toks X p (ty :: ta :: W) fi -> parseRule X rf p = Ok (n, d, q) ->
  exists v tc, n = NRule zeroPos (mkIdent (tPos ty) (tLit ty)) v tc /\ (tTok ta = ASSIGN -> v <> NNil -> exists_ (env q) (tLit ty) = true) /\
    (plain (nth 0 W (eofOf fi)) -> ending (tTok (nth 1 W (eofOf fi))) -> v <> NNil).
Proof.
  intros rf p n d q H E. unfold parseRule in E. assert (C : cur p = ty) by exact (toks_cur _ _ _ _ _ H).
  unfold curr in E. rewrite C, Hy in E. unfold pos, currLit in E. rewrite C in E.
  destruct (pnext X p) as [p1| | |] eqn:E1; try discriminate. cbn [rbind] in E. pose proof (next_toks _ _ _ H E1) as H1. cbn [tl] in H1.
  rewrite (toks_cur _ _ _ _ _ H1) in E. destruct Ha as [K|[K|K]]; rewrite K in *;
    (destruct (pnext X p1) as [p2| | |] eqn:E2; try discriminate; cbn [rbind] in E; pose proof (next_toks _ _ _ H1 E2) as H2; cbn [tl] in H2;
     destruct (parseEntry X rf _ p2) as [[[e d0] p3]| | |] eqn:E3; try discriminate; cbn [rbind] in E;
     assert (PL : plain (nth 0 W (eofOf fi)) -> ending (tTok (nth 1 W (eofOf fi))) -> d0 = None /\ e <> NNil)
       by (intros P1 P2; destruct (parseEntry_plain _ _ _ _ ltac:(rewrite (tk_cur _ _ _ _ H2); exact P1) ltac:(unfold peekTok; rewrite (tk_pk _ _ _ _ H2); exact P2) E3) as (e1 & QE & NE); injection QE as -> -> _; auto);
     destruct d0; [injection E as <- <- <-; eexists _, _; split; [reflexivity|]; split; [intros _ NN; now elim NN|]; intros P1 P2; destruct (PL P1 P2); discriminate|];
     destruct (ruleTrailing X p3) as [[tc p4]| | |]; try discriminate; cbn [rbind] in E);
    try (injection E as <- <- <-; eexists _, _; split; [reflexivity|]; split; [discriminate|]; intros P1 P2; now destruct (PL P1 P2)).
  destruct (registerRule _ e p4) as [p5| | |] eqn:E5; try discriminate. cbn [rbind] in E. injection E as <- <- <-. eexists _, _. split; [reflexivity|]. split; [intros _ _|intros P1 P2; now destruct (PL P1 P2)].
  unfold registerRule, add in E5. cbn [iName] in E5. destruct (exists_ (env p4) (tLit ty)) eqn:EX.
  - destruct (node_start _); try discriminate. injection E5 as <-. exact EX.
  - injection E5 as <-. cbn [env setEnv]. apply exists_names. unfold names; rewrite map_app. apply in_or_app. right. now left.
Qed.

Lemma exists_app : forall a b w, exists_ a w = true -> exists_ (a ++ b) w = true.
Proof. intros a b w H. apply exists_names. apply exists_names in H. unfold names; rewrite map_app. apply in_or_app. now left. Qed.

Lemma handle_toks : forall q d ts, Toks X q ts fi -> Toks X (handle q d) ts fi.
Proof. intros q [d|] ts H; [|exact H]. eapply toks_same; [..|exact H]; reflexivity. Qed.

Lemma fileLoop_finds : forall rf f acc p ts rules q, Stage ts -> Toks X p ts fi -> fileLoop X rf f acc p = Ok (rules, q) -> found rules (env q).
Proof.
  intros rf. induction f as [|f IH]; intros acc p ts rules q S H E.
  { exfalso. cbn [fileLoop] in E. destruct (teq (curr p) EOF) eqn:EE; [|discriminate]. apply teq_true in EE. apply (toks_curr_eof _ _ _ _ H) in EE. subst ts.
    inversion S as [u EU| | |]. destruct u; discriminate EU. }
  cbn [fileLoop] in E. destruct (teq (curr p) EOF) eqn:EE.
  { exfalso. apply teq_true in EE. apply (toks_curr_eof _ _ _ _ H) in EE. subst ts. inversion S as [u EU| | |]. destruct u; discriminate EU. }
  destruct (parseRule X rf p) as [[[n d] p1]| | |] eqn:EP; try discriminate. cbn [rbind] in E.
  destruct (pnext X (handle p1 d)) as [p2| | |] eqn:EN; try discriminate. cbn [rbind] in E.
  assert (GO : forall ts1, Toks X p1 ts1 fi -> Stage (tl ts1) -> found rules (env q)).
  { intros ts1 T1 S1. eapply (IH _ p2 (tl ts1)); eauto. eapply next_toks; [|exact EN]. now apply handle_toks. }
  assert (ONE : forall t ts1, ts = t :: ts1 -> tTok t <> IDENT -> tTok t <> COMMENT -> Stage ts1 -> found rules (env q)).
  { intros t ts1 -> N1 N2 S1. assert (p1 = p); [|subst p1; exact (GO _ H S1)]. unfold parseRule in EP. unfold curr in EP. rewrite (toks_cur _ _ _ _ _ H) in EP.
    destruct (tTok t); try congruence; injection EP as _ _ <-; reflexivity. }
  inversion S as [u EU|EU|EU|EU].
  - destruct u as [|c u].
    + cbn [app] in EU. subst ts. unfold parseRule in EP. assert (C : curr p = IDENT) by (unfold curr; now rewrite (toks_cur _ _ _ _ _ H)). rewrite C in EP.
      destruct (pnext X p) as [pa| | |] eqn:E1; try discriminate. cbn [rbind] in EP. pose proof (next_toks _ _ _ H E1) as H1. cbn [tl] in H1.
      assert (CA : curr pa = tTok te) by (unfold curr; now rewrite (toks_cur _ _ _ _ _ H1)). rewrite CA in EP.
      assert (FIN : forall p3, Toks X p3 (tk :: ty :: ta :: W) fi -> ruleTrailing X p3 = Ok (None, p3)).
      { intros p3 T3. unfold ruleTrailing, peekTok. rewrite (toks_pk _ _ _ _ _ T3). cbn [hd]. rewrite Hy. reflexivity. }
      destruct He as [K|[K|K]]; rewrite K in EP;
        (destruct (pnext X pa) as [pb| | |] eqn:E2; try discriminate; cbn [rbind] in EP; pose proof (next_toks _ _ _ H1 E2) as H2; cbn [tl] in H2;
         destruct (parseEntry X rf _ pb) as [[[e d0] p3]| | |] eqn:E3; try discriminate; cbn [rbind] in EP;
         pose proof (parseEntry_sole _ _ _ _ _ _ H2 Hk Hy _ E3) as T3; cbn [snd] in T3;
         destruct d0; [injection EP as _ _ <-; apply (GO _ T3); constructor|]; rewrite (FIN _ T3) in EP; cbn [rbind] in EP).
      * destruct (registerRule _ e p3) as [p5| | |] eqn:E5; try discriminate. cbn [rbind] in EP. injection EP as _ _ <-.
        apply (GO (tk :: ty :: ta :: W)); [|constructor]. eapply register_toks; eauto.
      * injection EP as _ _ <-. apply (GO _ T3). constructor.
      * injection EP as _ _ <-. apply (GO _ T3). constructor.
    + rewrite <- EU in H. destruct (parseRule_stage rf p (c :: u) n d p1) as (ts1 & T1 & S1); [discriminate|exact H|exact EP|]. exact (GO _ T1 S1).
  - eapply ONE; [symmetry; exact EU|..|constructor]; destruct He as [K|[K|K]]; rewrite K; discriminate.
  - eapply ONE; [symmetry; exact EU|..|constructor]; intros K; rewrite K in Hk; exact Hk.
  - subst ts. destruct (parseRule_heads _ _ _ _ _ H EP) as (v & tc & -> & KB & KP). cbn [notNil] in E.
    destruct (fileLoop_grows X _ _ _ _ _ _ E) as (nr & ne & nd & -> & G2 & _). exists v, tc. split; [|split; [|exact KP]].
    + rewrite <- app_assoc. apply in_or_app. right. now left.
    + intros KA KV. rewrite G2. apply exists_app. destruct (keeps_next _ _ _ EN) as (K1 & _). rewrite K1. destruct d; cbn [handle addDiag env]; auto.
Qed.
End Proof.

(** ** C99 *)

(** However a value is read, and whether or not it is one, no sign is passed. *)
Theorem C99_values : forall X f prec p n d q ts fi, Toks X p ts fi -> parseEntry X f prec p = Ok (n, d, q) ->
  exists passed rest, ts = passed ++ rest /\ Forall (fun t => ~ assigns (tTok t)) passed /\ Toks X q rest fi.
Proof. intros X f prec p n d q ts fi H E. destruct (parseEntry_V X f prec p _ E) as [O _]. exact (O _ _ H). Qed.

(** The tokens of a source that was parsed. *)
Lemma parsed_toks : forall X s e t ds p, decodable s -> parseSource X (parseFuel s) s e = Ok ((Some t, ds), p) -> exists ts eof q R pz,
  Str X (newLexer s) ts (FEof eof) /\ Toks X q ts (FEof eof) /\ env q = e /\ fileLoop X (parseFuel s) (parseFuel s) [] q = Ok (R, pz) /\ t = NCDDL zeroPos R /\ env p = env pz.
Proof.
  intros X s e t ds p D H. destruct (new_str X s D) as (ts & fi & k & HS & _ & _ & HL & _).
  assert (FE : exists eof, fi = FEof eof).
  { pose proof (source_post X _ s e (parseFuel s) ts fi HS ltac:(unfold parseFuel; lia) (posOk_true ts fi)) as SP. rewrite H in SP. cbn [wp] in SP.
    destruct SP as (t2 & l2 & _ & [(_ & SP & _)|(_ & rules & ks & df & dd & _ & _ & _ & _ & _ & _ & _ & SP & _)]); [discriminate SP|eauto]. }
  destruct FE as [eof ->]. pose proof (ParseStream.newParser_toks X _ e _ _ HS) as NP.
  destruct NP as [(_ & K & _)|(q & l1 & t1 & t2 & E & HT & Q1 & Q2 & Q3 & _ & _)]; [discriminate K|].
  unfold parseSource in H. rewrite E in H. cbn [rbind] in H. unfold parseFile in H. destruct (errors (lx q)); [|discriminate H].
  destruct (fileLoop X (parseFuel s) (parseFuel s) [] q) as [[R pz]| | |] eqn:EL; try discriminate H. cbn [rbind] in H. injection H as <- <- <-.
  exists ts, eof, q, R, pz. split; auto. split; auto. split; auto. split; auto. split; auto. apply runTasks_parts.
Qed.

Lemma str_scans2 : forall X l ts eof, Str X l ts (FEof eof) -> forall n us l1, scans X n l = Ok (us, l1) -> (exists w, ts = us ++ w) \/ (exists j, us = ts ++ repeat eof (S j)).
Proof.
  intros X l ts eof H. remember (FEof eof) as f. induction H as [l t l' ts f HS HE HR IH|l HS|l t HE HQ]; intros n us l1 HC; subst; try discriminate.
  - destruct n as [|n]; cbn [scans] in HC; [injection HC as <- <-; left; eexists; reflexivity|].
    rewrite HS in HC. cbn [rbind] in HC. destruct (scans X n l') as [[ws l2]| | |] eqn:E; try discriminate HC. cbn [rbind] in HC. injection HC as <- <-.
    destruct (IH eq_refl _ _ _ E) as [(w & ->)|(j & ->)]; [left; exists w|right; exists j]; reflexivity.
  - injection Heqf as ->. destruct (HQ n) as [l' S']. rewrite HC in S'. injection S' as -> ->. destruct n as [|n]; [left; exists []; reflexivity|right; exists n; reflexivity].
Qed.

Lemma parsed_split : forall X s ts eof n us l, Str X (newLexer s) ts (FEof eof) -> scans X n (newLexer s) = Ok (us, l) -> Forall (fun t => tTok t <> EOF) us -> exists w, ts = us ++ w.
Proof.
  intros X s ts eof n us l HS SC F. pose proof (str_eofTok _ _ _ _ HS) as EO. destruct (str_scans X eof _ _ HS _ _ _ SC) as [(w & -> & _)|[N K]]; [eauto|].
  exfalso. rewrite (app_removelast_last eof N), K in F. apply Forall_app in F as [_ F]. apply Forall_inv in F. now apply F.
Qed.

Theorem C99_found : forall X s e t ds p n u tx te tk ty ta l, decodable s ->
  parseSource X (parseFuel s) s e = Ok ((Some t, ds), p) ->
  scans X n (newLexer s) = Ok (u ++ [tx; te; tk; ty; ta], l) ->
  tTok tx = IDENT -> assigns (tTok te) -> sole (tTok tk) -> tTok ty = IDENT -> assigns (tTok ta) ->
  exists rules v tc, t = NCDDL zeroPos rules /\ In (NRule zeroPos (mkIdent (tPos ty) (tLit ty)) v tc) rules /\
    (tTok ta = ASSIGN -> v <> NNil -> bound (env p) (tLit ty)).
Proof.
  intros X s e t ds p n u tx te tk ty ta l D H SC Hx He Hk Hy Ha.
  destruct (parsed_toks _ _ _ _ _ _ D H) as (ts & eof & q & R & pz & HS & HT & _ & EL & -> & ->). pose proof (str_eofTok _ _ _ _ HS) as EO.
  destruct (str_scans X eof _ _ HS _ _ _ SC) as [(w & -> & _)|[_ K]].
  2: { exfalso. change (u ++ [tx; te; tk; ty; ta]) with (u ++ [tx; te; tk; ty] ++ [ta]) in K. rewrite app_assoc, last_last in K. rewrite <- K in EO. destruct Ha as [A|[A|A]]; rewrite A in EO; discriminate EO. }
  rewrite <- app_assoc in HT. cbn [app] in HT.
  destruct (fileLoop_finds X tx te tk ty ta w (FEof eof) Hx He Hk Hy Ha _ _ _ _ _ _ _ (St1 tx te tk ty ta w u) HT EL) as (v & tc & K1 & K2 & _).
  exists R, v, tc. split; auto. split; auto. intros K3 K4. specialize (K2 K3 K4). now apply exists_names.
Qed.

Theorem C99_defined : forall X s e t ds p n u tx te tk ty ta tv tn l, decodable s ->
  parseSource X (parseFuel s) s e = Ok ((Some t, ds), p) ->
  scans X n (newLexer s) = Ok (u ++ [tx; te; tk; ty; ta; tv; tn], l) ->
  tTok tx = IDENT -> assigns (tTok te) -> sole (tTok tk) -> tTok ty = IDENT -> tTok ta = ASSIGN -> plain tv -> ending (tTok tn) ->
  bound (env p) (tLit ty).
Proof.
  intros X s e t ds p n u tx te tk ty ta tv tn l D H SC Hx He Hk Hy Ha Hv Hn.
  destruct (parsed_toks _ _ _ _ _ _ D H) as (ts & eof & q & R & pz & HS & HT & _ & EL & _ & ->). pose proof (str_eofTok _ _ _ _ HS) as EO.
  assert (SP : exists w, ts = u ++ tx :: te :: tk :: ty :: ta :: w /\ nth 0 w eof = tv /\ ending (tTok (nth 1 w eof))).
  { assert (NV : tTok tv <> EOF) by (intros K; unfold plain in Hv; now rewrite K in Hv).
    destruct (str_scans2 _ _ _ _ HS _ _ _ SC) as [(w & ->)|(j & K)].
    - exists (tv :: tn :: w). rewrite <- !app_assoc. auto.
    - change (u ++ [tx; te; tk; ty; ta; tv; tn]) with (u ++ [tx; te; tk; ty; ta; tv] ++ [tn]) in K. rewrite app_assoc in K.
      assert (RP : forall i, repeat eof (S i) = repeat eof i ++ [eof]) by (induction i as [|i IH]; [reflexivity|]; cbn [repeat app] in *; now rewrite <- IH).
      rewrite RP, app_assoc in K. apply app_inj_tail in K as [K ->]. destruct j as [|j].
      + cbn [repeat] in K. rewrite app_nil_r in K. exists [tv]. split; [now rewrite <- K|]. split; [reflexivity|]. right. exact EO.
      + exfalso. change (u ++ [tx; te; tk; ty; ta; tv]) with (u ++ [tx; te; tk; ty; ta] ++ [tv]) in K. rewrite RP, !app_assoc in K. apply app_inj_tail in K as [_ ->]. now apply NV. }
  destruct SP as (w & -> & W1 & W2).
  destruct (fileLoop_finds X tx te tk ty ta w (FEof eof) Hx He Hk Hy (or_introl Ha) _ _ _ _ _ _ _ (St1 tx te tk ty ta w u) HT EL) as (v & tc & _ & K2 & K3).
  cbn [eofOf] in K3. rewrite W1 in K3. specialize (K2 Ha (K3 Hv W2)). now apply exists_names.
Qed.

(** ** Lines after any text *)

Lemma lexes_str : forall X s, decodable s -> lexes X s -> exists ts eof, Str X (newLexer s) ts (FEof eof).
Proof.
  intros X s D (n & us & t & l & H & E). destruct (new_str X s D) as (ts & fi & k & HS & _). destruct fi as [eof|]; [eauto|].
  exfalso. clear D. revert n us H. remember FPanic as f. induction HS as [l0 t0 l' ts f HS HE HR IH|l0 HS|l0 t0 HE HQ]; intros n us H; subst; try discriminate.
  - destruct n as [|n]; cbn [scans] in H; [destruct us; discriminate H|]. rewrite HS in H. cbn [rbind] in H. destruct (scans X n l') as [[ws l2]| | |] eqn:E2; try discriminate H. cbn [rbind] in H.
    destruct us as [|u us]; cbn [app] in H; injection H as K1 K2 <-; [congruence|]. subst ws. eapply IH; eauto.
  - destruct n as [|n]; cbn [scans] in H; [destruct us; discriminate H|]. rewrite HS in H. discriminate H.
Qed.

Lemma alike_each : forall us vs, Alike us vs -> Forall2 sameTok us vs.
Proof. induction 1; constructor; auto. Qed.

Lemma str_to_scans : forall X us l w f, Str X l (us ++ w) f -> exists l', scans X (length us) l = Ok (us, l').
Proof.
  intros X. induction us as [|u us IH]; intros l w f H; [exists l; reflexivity|]. cbn [app] in H. inversion H as [? ? l1 ? ? E1 E2 E3| |]; subst.
  destruct (IH _ _ _ E3) as (l' & K). exists l'. cbn [length scans]. rewrite E1. cbn [rbind]. rewrite K. reflexivity.
Qed.

Theorem C99_after : forall X a b e t ds p tx te tk ty ta l, decodable a -> decodable b -> lexes X a -> lexes X b ->
  parseSource X (parseFuel (a ++ 10 :: b)) (a ++ 10 :: b) e = Ok ((Some t, ds), p) ->
  scans X 5 (newLexer b) = Ok ([tx; te; tk; ty; ta], l) ->
  tTok tx = IDENT -> assigns (tTok te) -> sole (tTok tk) -> tTok ty = IDENT -> assigns (tTok ta) ->
  exists rules q v tc, t = NCDDL zeroPos rules /\ In (NRule zeroPos (mkIdent q (tLit ty)) v tc) rules.
Proof.
  intros X a b e t ds p tx te tk ty ta l DA DB LA LB H SC Hx He Hk Hy Ha.
  destruct (lexes_str _ _ DA LA) as (ua & ea & TA), (lexes_str _ _ DB LB) as (ub & eb & TB). destruct (decodable_join a b DA DB) as [DS DZ].
  pose proof (reflow_blot X a b _ _ DB TB) as RF.
  assert (RS : forall n, relRes (fun a b => Alike (fst a) (fst b) /\ (errors (snd a) = [] <-> errors (snd b) = [])) (scans X n (newLexer b)) (scans X n (newLexer (blot a ++ 10 :: b)))).
  { intros n. apply (reflow_scans X n b (blot a ++ 10 :: b) (newLexer b) (newLexer (blot a ++ 10 :: b)) 0 0 true zeroTok zeroTok); auto using newLexer_st; [discriminate|].
    destruct (newLexer_at b DB) as (_ & -> & _), (newLexer_at (blot a ++ 10 :: b) DZ) as (_ & -> & _). tauto. }
  assert (LZ : lexes X (blot a ++ 10 :: b)).
  { destruct LB as (n & us & u & l0 & S0 & E0). specialize (RS n). rewrite S0 in RS. destruct (scans X n (newLexer (blot a ++ 10 :: b))) as [[vs l1]| | |] eqn:S1; cbn [relRes fst snd] in RS; try contradiction. destruct RS as [AL _].
    apply alike_each, Forall2_app_inv_l in AL as (v1 & v2 & _ & F2 & ->). inversion F2 as [|? v ? ? [K1 _] F3]; subst. inversion F3; subst. exists n, v1, v, l1. split; auto. congruence. }
  destruct (lexes_str _ _ DZ LZ) as (uz & ez & TZ). destruct (joined_tokens X a b _ _ _ _ _ _ DA DB TA TB TZ) as [TS _].
  specialize (RS 5%nat). rewrite SC in RS. destruct (scans X 5 (newLexer (blot a ++ 10 :: b))) as [[vs l1]| | |] eqn:S1; cbn [relRes fst snd] in RS; try contradiction. destruct RS as [AL _].
  apply alike_each in AL. inversion AL as [|? vx ? ? [X1 _] A1]; subst. inversion A1 as [|? ve ? ? [E1 _] A2]; subst. inversion A2 as [|? vk ? ? [K1 _] A3]; subst.
  inversion A3 as [|? vy ? ? [Y1 Y2] A4]; subst. inversion A4 as [|? va ? ? [V1 _] A5]; subst. inversion A5; subst.
  rewrite X1 in Hx. rewrite E1 in He. rewrite K1 in Hk. rewrite Y1 in Hy. rewrite V1 in Ha. rewrite Y2.
  assert (NB : forall t, assigns t -> t <> EOF) by (intros t0 [->|[->| ->]]; discriminate).
  destruct (parsed_split _ _ _ _ _ _ _ TZ S1) as (w & ->).
  { repeat constructor; [congruence|now apply NB|intros K; rewrite K in Hk; exact Hk|congruence|now apply NB]. }
  rewrite app_assoc in TS. destruct (str_to_scans _ _ _ _ _ TS) as (l2 & S2).
  destruct (C99_found X _ e t ds p _ ua vx ve vk vy va l2 DS H S2 Hx He Hk Hy Ha) as (rules & v & tc & -> & K & _). eauto 6.
Qed.

(** ** A missing value before rules that stand for others *)

Lemma cascade_loop : forall X eof rf f acc p ts R q, Aliases ts -> Toks X p ts (FEof eof) -> fileLoop X rf f acc p = Ok (R, q) -> R = acc /\ env q = env p.
Proof.
  intros X eof rf. assert (ONE : forall f acc p t ts R q, Toks X p (t :: ts) (FEof eof) -> assigns (tTok t) -> fileLoop X rf f acc p = Ok (R, q) ->
    exists f' p2, f = S f' /\ Toks X p2 ts (FEof eof) /\ env p2 = env p /\ fileLoop X rf f' acc p2 = Ok (R, q)).
  { intros f acc p t ts R q H HA E. assert (C : curr p = tTok t) by (unfold curr; now rewrite (toks_cur _ _ _ _ _ H)).
    assert (NE : teq (curr p) EOF = false) by (rewrite C; destruct HA as [->|[->| ->]]; reflexivity).
    destruct f as [|f]; cbn [fileLoop] in E; rewrite NE in E; [discriminate|].
    assert (EP : parseRule X rf p = Ok (NNil, Some (errorTokenExpected (pos p) IDENT), p)) by (unfold parseRule; rewrite C; destruct HA as [->|[->| ->]]; reflexivity).
    rewrite EP in E. cbn [rbind handle notNil] in E. destruct (pnext X (addDiag p _)) as [p2| | |] eqn:EN; try discriminate. cbn [rbind] in E.
    exists f, p2. split; auto. split; [|split; [|exact E]].
    - apply (next_toks X (FEof eof) _ _ (t :: ts)) in EN; [exact EN|]. eapply toks_same; [..|exact H]; reflexivity.
    - now destruct (keeps_next _ _ _ EN). }
  assert (TWO : forall f acc p c b ts R q, Toks X p (c :: ts) (FEof eof) -> b = hd eof ts -> tTok c = IDENT -> ending (tTok b) -> fileLoop X rf f acc p = Ok (R, q) ->
    exists f' p2, f = S f' /\ Toks X p2 (tl ts) (FEof eof) /\ env p2 = env p /\ fileLoop X rf f' acc p2 = Ok (R, q)).
  { intros f acc p c b ts R q H HB HC HA E. assert (C : curr p = IDENT) by (unfold curr; now rewrite (toks_cur _ _ _ _ _ H)).
    destruct f as [|f]; cbn [fileLoop] in E; rewrite C in E; [discriminate|]. cbn [teq] in E. cbv iota in E.
    unfold parseRule in E. rewrite C in E. destruct (pnext X p) as [p1| | |] eqn:E1; try discriminate. cbn [rbind] in E.
    pose proof (next_toks _ _ _ _ _ H E1) as H1. cbn [tl] in H1.
    assert (C1 : curr p1 = tTok b) by (unfold curr; rewrite (tk_cur _ _ _ _ H1), HB; now destruct ts). rewrite C1 in E.
    assert (E' : rbind (pnext X (addDiag p1 (err (MExpectedAssign (currLit p)) (pos p) (pos p)))) (fun p2 => fileLoop X rf f acc p2) = Ok (R, q)) by (destruct HA as [K|K]; rewrite K in E; exact E).
    clear E. destruct (pnext X (addDiag p1 _)) as [p2| | |] eqn:EN; try discriminate. cbn [rbind] in E'.
    exists f, p2. split; auto. split; [|split; [|exact E']].
    - apply (next_toks X (FEof eof) _ _ ts) in EN; [exact EN|]. eapply toks_same; [..|exact H1]; reflexivity.
    - destruct (keeps_next _ _ _ EN) as (K1 & _). rewrite K1. cbn [addDiag env]. now destruct (keeps_next _ _ _ E1). }
  intros f acc p ts R q HA. revert f acc p. induction HA as [te c He Hc|te c b ts He Hc Hb HA IH]; intros f acc p H E.
  - destruct (ONE _ _ _ _ _ _ _ H He E) as (f1 & p1 & -> & H1 & V1 & E1). destruct (TWO _ _ _ _ eof _ _ _ H1 eq_refl Hc (or_intror (tk_eof _ _ _ _ H ltac:(discriminate))) E1) as (f2 & p2 & -> & H2 & V2 & E2).
    cbn [tl] in H2. assert (EO : teq (curr p2) EOF = true) by (apply teq_true; apply (toks_curr_eof _ _ _ _ H2); reflexivity).
    destruct f2; cbn [fileLoop] in E2; rewrite EO in E2; injection E2 as <- <-; split; congruence.
  - destruct (ONE _ _ _ _ _ _ _ H He E) as (f1 & p1 & -> & H1 & V1 & E1). destruct (TWO _ _ _ _ b _ _ _ H1 eq_refl Hc (or_introl Hb) E1) as (f2 & p2 & -> & H2 & V2 & E2).
    cbn [tl] in H2. destruct (IH _ _ _ H2 E2). split; congruence.
Qed.

Theorem C99_cascade : forall X s e t ds p n tx te tb ts eof l, decodable s ->
  parseSource X (parseFuel s) s e = Ok ((Some t, ds), p) ->
  scans X n (newLexer s) = Ok (tx :: te :: tb :: ts ++ [eof], l) ->
  tTok tx = IDENT -> assigns (tTok te) -> tTok tb = IDENT -> Aliases ts -> tTok eof = EOF ->
  t = NCDDL zeroPos [NRule zeroPos (mkIdent (tPos tx) (tLit tx)) (NIdentifier (mkIdent (tPos tb) (tLit tb))) None] /\
  forall w, bound (env p) w -> bound e w \/ w = tLit tx.
Proof.
  intros X s e t ds p n tx te tb ts eof l D H SC Hx He Hb HA Ho.
  destruct (parsed_toks _ _ _ _ _ _ D H) as (us & eo & q & R & pz & HS & HT & QE & EL & -> & ->). pose proof (str_eofTok _ _ _ _ HS) as EO.
  assert (AN : Forall (fun t => tTok t <> EOF) ts).
  { clear - HA. assert (NB : forall t, assigns t -> t <> EOF) by (intros t0 [->|[->| ->]]; discriminate). induction HA; repeat constructor; auto; congruence. }
  assert (EU : us = tx :: te :: tb :: ts).
  { change (tx :: te :: tb :: ts ++ [eof]) with ((tx :: te :: tb :: ts) ++ [eof]) in SC. pose proof (str_ne _ _ _ _ HS) as NE.
    destruct (str_scans2 _ _ _ _ HS _ _ _ SC) as [(w & K)|(j & K)].
    - exfalso. rewrite K, !Forall_app in NE. destruct NE as [[_ NE] _]. apply Forall_inv in NE. now apply NE.
    - assert (RP : forall i, repeat eo (S i) = repeat eo i ++ [eo]) by (induction i as [|i IH]; [reflexivity|]; cbn [repeat app] in *; now rewrite <- IH).
      rewrite RP, app_assoc in K. apply app_inj_tail in K as [K _]. destruct j as [|j]; [cbn [repeat] in K; now rewrite app_nil_r in K|]. exfalso.
      assert (F : Forall (fun t => tTok t <> EOF) (tx :: te :: tb :: ts)) by (repeat constructor; auto; [congruence| |congruence]; destruct He as [->|[->| ->]]; discriminate).
      rewrite K, RP, !Forall_app in F. destruct F as [_ [_ F]]. apply Forall_inv in F. now apply F. }
  subst us. clear SC. remember (parseFuel s) as rf eqn:ERF. clear ERF H.
  assert (C : cur q = tx) by exact (toks_cur _ _ _ _ _ HT). 
  assert (NE : teq (curr q) EOF = false) by (unfold curr; rewrite C, Hx; reflexivity).
  assert (FU : exists f, rf = S f) by (destruct rf as [|f]; [cbn [fileLoop] in EL; rewrite NE in EL; discriminate|eauto]). destruct FU as (f & EF).
  rewrite EF in EL at 2. cbn [fileLoop] in EL. rewrite NE in EL.
  destruct (parseRule X rf q) as [[[nd d] p1]| | |] eqn:EP; try discriminate. cbn [rbind] in EL.
  destruct (pnext X (handle p1 d)) as [p2| | |] eqn:EN; try discriminate. cbn [rbind] in EL.
  unfold parseRule in EP. unfold curr in EP at 1. rewrite C, Hx in EP. destruct (pnext X q) as [q1| | |] eqn:E1; try discriminate. cbn [rbind] in EP.
  pose proof (next_toks _ _ _ _ _ HT E1) as H1. cbn [tl] in H1.
  assert (ENT : forall prec q2 r, pnext X q1 = Ok q2 -> parseEntry X rf prec q2 = Ok r -> exists q3, r = (NIdentifier (mkIdent (tPos tb) (tLit tb)), None, q3) /\ Toks X q3 (tb :: ts) (FEof eo) /\ env q3 = env q /\ ruleTrailing X q3 = Ok (None, q3)).
  { intros prec q2 r E2 E3. pose proof (next_toks _ _ _ _ _ H1 E2) as H2. cbn [tl] in H2. rewrite EF in E3. cbn [parseEntry] in E3.
    assert (C2 : cur q2 = tb) by exact (toks_cur _ _ _ _ _ H2).
    assert (PK : assigns (peekTok q2)) by (unfold peekTok; rewrite (toks_pk _ _ _ _ _ H2); inversion HA; subst; auto).
    assert (SK : skipComments X f q2 = Ok q2) by (unfold skipComments, curr; rewrite C2, Hb; reflexivity). rewrite SK in E3. cbn [rbind] in E3.
    assert (CN : chooseNud q2 = Some NuNamedIdentifier) by (unfold chooseNud, curr; rewrite C2, Hb; destruct PK as [->|[->| ->]]; reflexivity). rewrite CN in E3. cbn [runNud] in E3.
    unfold parseNamedIdentifier, currLit, pos in E3. rewrite C2 in E3. destruct (tLit tb) as [|c w]; [discriminate E3|]. cbn [rbind] in E3.
    set (q3 := if c =? 36 then q2 else _) in E3.
    assert (Q3 : lx q3 = lx q2 /\ cur q3 = cur q2 /\ pk q3 = pk q2 /\ env q3 = env q2) by (unfold q3; destruct (c =? 36); auto). destruct Q3 as (L1 & L2 & L3 & L4).
    exists q3. assert (RT : ruleTrailing X q3 = Ok (None, q3)).
    { unfold ruleTrailing, peekTok. rewrite L3. fold (peekTok q2). destruct PK as [->|[->| ->]]; reflexivity. }
    split; [|split; [eapply toks_same; [exact L1|exact L2|exact L3|exact H2]|split; [|exact RT]]].
    - assert (P3 : peekTok q3 = peekTok q2) by (unfold peekTok; now rewrite L3).
      destruct f; cbn [ledLoop] in E3; rewrite P3 in E3; destruct PK as [K|[K|K]]; rewrite K in E3; cbn [ledFor] in E3; destruct (negb (teq (curr q3) COMMA) && _); congruence.
    - rewrite L4. destruct (keeps_next _ _ _ E2) as (-> & _). now destruct (keeps_next _ _ _ E1) as (-> & _). }
  assert (FIN : exists tw, Toks X p1 (tb :: ts) (FEof eo) /\ nd = NRule zeroPos (mkIdent (tPos tx) (tLit tx)) (NIdentifier (mkIdent (tPos tb) (tLit tb))) None /\ env p1 = e ++ tw /\ (forall w, In w (names tw) -> w = tLit tx)).
  { assert (C1 : curr q1 = tTok te) by (unfold curr; now rewrite (toks_cur _ _ _ _ _ H1)). rewrite C1 in EP. unfold pos, currLit in EP. rewrite C in EP.
    destruct He as [K|[K|K]]; rewrite K in EP;
      (destruct (pnext X q1) as [q2| | |] eqn:E2; try discriminate; cbn [rbind] in EP; destruct (parseEntry X rf _ q2) as [r| | |] eqn:E3; try discriminate; cbn [rbind] in EP;
       destruct (ENT _ _ _ eq_refl E3) as (q3 & -> & T3 & V3 & RT); rewrite RT in EP; cbn [rbind] in EP).
    - destruct (registerRule _ _ q3) as [q5| | |] eqn:E5; try discriminate. cbn [rbind] in EP. injection EP as <- <- <-.
      pose proof (register_toks _ _ _ _ _ _ _ E5 T3) as T5. unfold registerRule, add in E5. cbn [iName] in E5. destruct (exists_ (env q3) (tLit tx)).
      + destruct (node_start _); try discriminate. injection E5 as <-. exists []. cbn [env addDiag setEnv]. rewrite app_nil_r. repeat split; try exact (proj1 (conj T5 I)); try congruence; try (intros ? []); apply T5.
      + injection E5 as <-. eexists [_]. cbn [env setEnv]. split; [exact T5|]. split; auto. split; [rewrite V3, QE; reflexivity|]. intros w [<-|[]]. reflexivity.
    - injection EP as <- <- <-. exists []. rewrite app_nil_r. split; [exact T3|]. split; auto. split; [congruence|intros ? []].
    - injection EP as <- <- <-. exists []. rewrite app_nil_r. split; [exact T3|]. split; auto. split; [congruence|intros ? []]. }
  destruct FIN as (tw & T1 & -> & V1 & NW). cbn [notNil app] in EL.
  assert (T2 : Toks X p2 ts (FEof eo)).
  { apply (next_toks X (FEof eo) _ _ (tb :: ts)) in EN; [exact EN|]. now apply handle_toks. }
  assert (V2 : env p2 = e ++ tw) by (destruct (keeps_next _ _ _ EN) as (-> & _); destruct d; exact V1).
  destruct (cascade_loop _ _ _ _ _ _ _ _ _ HA T2 EL) as [-> ->]. split; [reflexivity|]. rewrite V2.
  intros w Bw. unfold bound, names in Bw. rewrite map_app in Bw. apply in_app_or in Bw as [Bw|Bw]; [now left|right]. now apply NW.
Qed.

(** ** Examples *)

(** An unclosed array swallows the line after it; the rules from the second line on are found. *)
Example C99_ex : exists a b t ds p tx te tk ty ta l R, decodable a /\ decodable b /\ lexes X0 a /\ lexes X0 b /\
  parseSource X0 (parseFuel (a ++ 10 :: b)) (a ++ 10 :: b) [] = Ok ((Some t, ds), p) /\ scans X0 5 (newLexer b) = Ok ([tx; te; tk; ty; ta], l) /\
  tTok tx = IDENT /\ assigns (tTok te) /\ sole (tTok tk) /\ tTok ty = IDENT /\ assigns (tTok ta) /\
  t = NCDDL zeroPos R /\ length R = 2%nat /\ names (env p) = [str "z"] /\ ds <> None.
Proof.
  exists (str "q = [1, {a:"), (str "y = int" ++ 10 :: str "z = tstr"). do 10 eexists.
  split; [now apply good_by_ascii|]. split; [now apply good_by_ascii|].
  split; [exists 9%nat; eexists (_ :: _ :: _ :: _ :: _ :: _ :: _ :: _ :: []), _, _; split; [vm_compute; reflexivity|reflexivity]|].
  split; [exists 7%nat; eexists (_ :: _ :: _ :: _ :: _ :: _ :: []), _, _; split; [vm_compute; reflexivity|reflexivity]|].
  split; [vm_compute; reflexivity|]. split; [vm_compute; reflexivity|]. split; [reflexivity|]. split; [now left|]. split; [exact I|]. split; [reflexivity|]. split; [now left|].
  split; [reflexivity|]. split; [reflexivity|]. split; [reflexivity|discriminate].
Qed.

Example C99_cascade_ex : exists s t ds p tx te tb ts eof l, decodable s /\ parseSource X0 (parseFuel s) s [] = Ok ((Some t, ds), p) /\
  scans X0 9 (newLexer s) = Ok (tx :: te :: tb :: ts ++ [eof], l) /\ tTok tx = IDENT /\ assigns (tTok te) /\ tTok tb = IDENT /\ Aliases ts /\ tTok eof = EOF /\ length ts = 5%nat.
Proof.
  exists (str "a =" ++ 10 :: str "b = c" ++ 10 :: str "d = f"). do 6 eexists. eexists [_; _; _; _; _], _, _.
  split; [now apply good_by_ascii|]. split; [vm_compute; reflexivity|]. split; [vm_compute; reflexivity|]. split; [reflexivity|]. split; [now left|]. split; [reflexivity|].
  split; [|split; reflexivity]. constructor; [now left|reflexivity|reflexivity|]. constructor; [now left|reflexivity].
Qed.
