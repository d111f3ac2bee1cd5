(** Property C100: what the parser makes is no larger than the source. *)
From Coq Require Import String.
From Verif Require Import Base Utf8 Token Ext Strconv Lexer LexSpec LexSpec2 LexSpec3 LexerProofs LexWords LexOne LexSeq LexHang
  Ast Env Diag Parser ParseSpec ParseSound ParseStream ParseFacts ParseTop ParseSource ParseLoop ParseFrame Props_Lexer Props_LexFull Props_Says Props_Append Props_Parser Doc DocText DocProofs Props_Doc TreeJson.
Open Scope string_scope.
Open Scope list_scope.
Open Scope Z_scope.

(** ** Specification *)

Definition one {A} (o : option A) : nat := match o with Some _ => 1 | None => 0 end%nat.

(** How many nodes a tree has. Names, comments and bounds are nodes too; nil is none. *)
Fixpoint size (n : node) : nat :=
  match n with
  | NNil | NTypedNil _ => 0
  | NCommentGroup l => 1 + length l
  | NEntry _ _ v tc | NRule _ _ v tc => 2 + size v + one tc
  | NTypeChoice _ _ a b | NGroupChoice _ _ a b | NSizeOp _ _ a b | NBits _ _ a b | NComparator _ _ _ a b | NRange _ _ a b => 1 + size a + size b
  | NUnwrap _ _ a | NEnumeration _ _ a | NOptional _ _ a | NBadNode _ _ a _ => 1 + size a
  | NTag _ _ a b c | NNMOccurrence _ _ a b c => 1 + one a + one b + size c
  | NRegexp _ _ b r => 1 + one b + size r
  | NGroup _ l | NMap _ _ l | NArray _ l | NCDDL _ l => 1 + list_sum (map size l)
  | _ => 1
  end%nat.

(** [s] has the tokens [ts] before its end. *)
Definition tokensOf (X : Ext) (s : bytes) (ts : list tokInfo) : Prop :=
  exists t l, scans X (S (length ts)) (newLexer s) = Ok (ts ++ [t], l) /\ tTok t = EOF /\ Forall (fun t => tTok t <> EOF) ts.

(** ** Proof *)

Section Proof.
Variables (X : Ext) (fi : fin).

Definition Has (p : parser) (k : nat) : Prop := exists ts, Toks X p ts fi /\ length ts = k.
Definition tk (p : parser) : nat := length (tasks p).

(** From [p] with [k] tokens left to [q] with [k']. *)
Definition Step (dt : nat) (p : parser) (k : nat) (q : parser) (k' : nat) : Prop :=
  Has q k' /\ (k' <= k)%nat /\ env q = env p /\ perrors q = perrors p /\ (tk q + k' <= tk p + k + dt)%nat.

Lemma step_refl : forall p k, Has p k -> Step 0 p k p k.
Proof. intros p k H. split; auto. repeat split; auto; lia. Qed.

Lemma step_trans : forall a b p k q k' r k'', Step a p k q k' -> Step b q k' r k'' -> Step (a + b) p k r k''.
Proof. intros a b p k q k' r k'' (A1 & A2 & A3 & A4 & A5) (B1 & B2 & B3 & B4 & B5). split; auto. split; [lia|]. split; [congruence|]. split; [congruence|lia]. Qed.

Definition bOf (t : token) : nat := match t with ZERO_OR_MORE | ONE_OR_MORE => 2 | _ => 1 end%nat.

(** What reading a value does. *)
Definition okS (p : parser) (r : pres) : Prop := forall k, Has p k ->
  ok r (fun a => let '(n, d, q) := a in exists k', Step 1 p k q k' /\ (d = None -> 0 < k' /\ size n + 2 * k' <= 2 * k + bOf (curr p))%nat).
Definition fnS (pe : entryFn) : Prop := forall prec p, okS p (pe prec p).

Lemma has_pos : forall p k, Has p k -> curr p <> EOF -> (0 < k)%nat.
Proof. intros p k (ts & T & <-) N. destruct ts; [|simpl; lia]. exfalso. apply N. now apply (toks_curr_eof _ _ _ _ T). Qed.

Lemma has_curr : forall p k, Has p k -> (0 < k)%nat -> curr p <> EOF.
Proof. intros p k (ts & T & <-) N E. apply (toks_curr_eof _ _ _ _ T) in E. subst. simpl in N. lia. Qed.

Lemma next_S : forall p k (Q : parser -> Prop), Has p k ->
  (forall q, Has q (k - 1) -> env q = env p -> perrors q = perrors p -> tk q = tk p -> curr q = peekTok p -> Q q) -> ok (pnext X p) Q.
Proof.
  intros p k Q (ts & T & <-) HQ q E. destruct (pnext_ok _ _ _ _ _ T E) as [T' (S1 & S2 & S3)]. apply HQ; auto.
  - exists (tl ts). split; auto. destruct ts; simpl; lia.
  - unfold tk. now rewrite S3.
  - unfold pnext in E. destruct (scan X (lx p)) as [[t l]| | |]; try discriminate. injection E as <-. reflexivity.
Qed.

Lemma pe_S : forall pe p k (Q : node * option diag * parser -> Prop), fnS pe -> Has p k ->
  (forall n d q k', Step 1 p k q k' -> (d = None -> 0 < k' /\ size n + 2 * k' <= 2 * k + bOf (curr p))%nat -> Q (n, d, q)) -> ok (peCurr pe p) Q.
Proof. intros pe p k Q HP H HQ [[n d] q] E. destruct (HP _ _ _ H _ E) as (k' & K1 & K2). eapply HQ; eauto. Qed.

Lemma b2 : forall t, (1 <= bOf t <= 2)%nat.
Proof. destruct t; simpl; lia. Qed.

Lemma has_add : forall p k t, Has p k -> Has (addTask p t) k.
Proof. intros p k t (ts & T & E). exists ts. split; auto. now apply toks_addTask. Qed.
Lemma tk_add : forall p t, tk (addTask p t) = S (tk p).
Proof. intros p t. unfold tk, addTask. cbn [tasks]. rewrite app_length. simpl. lia. Qed.

(** Closing a goal about numbers and unchanged parts. *)
Ltac fin0 := unfold Step in *;
  repeat match goal with H : _ /\ _ |- _ => destruct H end;
  repeat match goal with H : ?x = ?x -> _ |- _ => specialize (H eq_refl) end;
  repeat match goal with H : _ /\ _ |- _ => destruct H end;
  repeat match goal with |- context [bOf ?t] => lazymatch goal with _ : (1 <= bOf t <= 2)%nat |- _ => fail | _ => pose proof (b2 t) end
   | _ : context [bOf ?t] |- _ => lazymatch goal with _ : (1 <= bOf t <= 2)%nat |- _ => fail | _ => pose proof (b2 t) end end;
  rewrite ?tk_add in *;
  repeat split; try discriminate; try (intros _); try split; first [eassumption | (apply has_add; eassumption) | cbn [env perrors addTask] in *; congruence | change (list_sum (map size [])) with 0%nat in *; cbn [size one] in *; rewrite ?tk_add in *; lia | idtac].

Ltac vstep :=
  match goal with
  | |- okS ?p _ => intros ? ?
  | |- ok (rbind _ _) _ => apply ok_bind
  | HP : fnS ?pe, H : Has ?p ?k |- ok (peCurr ?pe ?p) _ => apply (pe_S pe p k _ HP H); intros ? ? ? ? (? & ? & ? & ? & ?) ?
  | H : Has ?p ?k |- ok (pnext X ?p) _ => apply (next_S p k _ H); intros
  | |- ok (Ok _) _ => apply ok_ret
  | |- ok Panic _ => intros ? ?; discriminate
  | |- ok Hang _ => intros ? ?; discriminate
  | |- ok NoFuel _ => intros ? ?; discriminate
  | |- ok (node_start _) _ => apply ok_any; intros
  | |- ok (node_end _) _ => apply ok_any; intros
  | |- ok (wrapBadNode _) _ => apply ok_any; intros
  | |- ok (if teq ?a ?b then _ else _) _ => let E := fresh "E" in destruct (teq a b) eqn:E; [apply teq_true in E|]
  | |- ok (match ?x with _ => _ end) _ => destruct x
  | |- ok (let '(_, _) := ?x in _) _ => destruct x
  end.
Ltac vsolve := repeat (cbv beta iota; vstep).

Lemma commentLoop_S : forall f acc p k, Has p k -> (0 < k)%nat ->
  ok (commentLoop X f acc p) (fun a => exists k', Step 0 p k (snd a) k' /\ (0 < k')%nat /\ (length (fst a) + k' = length acc + k)%nat).
Proof.
  induction f as [|f IH]; intros acc p k H P; cbn [commentLoop]; destruct (teq (peekTok p) COMMENT) eqn:E; try (intros ? ?; discriminate);
    try (apply ok_ret; cbn [fst snd]; exists k; split; [now apply step_refl|auto]).
  apply teq_true in E. apply ok_bind. apply (next_S p k); auto. intros q HQ E1 E2 E3 C.
  assert (P1 : (0 < k - 1)%nat) by (apply (has_pos q _ HQ); rewrite C, E; discriminate).
  eapply ok_mono; [exact (IH _ q _ HQ P1)|]. intros [l q'] (k' & (S1 & S2 & S3 & S4 & S5) & PK & L). cbn [fst snd] in *. exists k'.
  rewrite app_length in L. simpl in L. split; [|lia]. split; auto. repeat split; try congruence; lia.
Qed.

Lemma parseComment_S : forall f p k, Has p k -> (0 < k)%nat ->
  ok (parseComment X f p) (fun a => let '(n, d, q) := a in d = None /\ exists k', Step 0 p k q k' /\ (0 < k')%nat /\ (size n + 2 * k' <= 2 * k + 1)%nat).
Proof.
  intros f p k H P. unfold parseComment. apply ok_bind. eapply ok_mono; [exact (commentLoop_S f _ p k H P)|]. intros [l q] (k' & S & PK & L). cbn [fst snd length] in *.
  destruct l as [|c [|c2 l]]; apply ok_ret; (split; [reflexivity|]); exists k'; (split; [exact S|split; [exact PK|]]); destruct S as (_ & ? & _); cbn [size length] in *; lia.
Qed.

Lemma bracketLoop_S : forall pe stop keep, fnS pe -> stop <> EOF -> forall f acc p k, Has p k ->
  ok (bracketLoop X pe stop keep f acc p) (fun a => let '(l, d, q) := a in exists k', Step 1 p k q k' /\
    (d = None -> 0 < k' /\ tk q + k' <= tk p + k /\ list_sum (map size l) + 2 * k' <= list_sum (map size acc) + 2 * k)%nat).
Proof.
  intros pe stop keep HP HS. induction f as [|f IH]; intros acc p k H; cbn [bracketLoop]; destruct (teq (curr p) stop) eqn:E; try (apply teq_true in E); try (intros ? ?; discriminate).
  1, 2: apply ok_ret; exists k; (split; [fin0|intros _]); (split; [apply (has_pos p); auto; congruence|lia]).
  vsolve.
  - exists k'. fin0.
  - match goal with HQ : Has ?q _, C : curr ?q = peekTok _ |- _ => eapply ok_mono; [exact (IH _ q _ HQ)|] end.
    intros [[l d] q'] (k2 & S2 & K2). exists k2. pose proof (b2 (curr p)).
    destruct S2 as (S1 & S2 & S3 & S4 & S5). match goal with H0 : None = None -> _ |- _ => destruct (H0 eq_refl) as [P0 L0] end.
    split; [repeat split; auto; try congruence; lia|]. intros D. destruct (K2 D) as (Q1 & Q2 & Q3).
    split; auto. split; [lia|].
    assert (L : (list_sum (map size (if keep n then acc ++ [n] else acc)) <= list_sum (map size acc) + size n)%nat).
    { destruct (keep n); [|lia]. rewrite map_app, list_sum_app. simpl. lia. }
    lia.
Qed.

Lemma occ_S : forall pe left p, fnS pe -> curr p <> EOF -> forall k, Has p k ->
  ok (parseOccurrence X pe left p) (fun a => let '(n, d, q) := a in exists k', Step 1 p k q k' /\ (d = None -> 0 < k' /\ size n + 2 * k' <= 2 * k + 2)%nat).
Proof.
  intros pe left p HP NE k H. pose proof (has_pos _ _ H NE) as PK. unfold parseOccurrence. apply ok_bind. apply ok_any. intros [u|d]; [|apply ok_ret; exists k; fin0].
  apply ok_bind. unfold occUpper, parseUintType, parseUintLiteral. destruct (teq (peekTok p) INT && isLiteral (peekTok p) (peekLit p)) eqn:E.
  - apply andb_true_iff in E. destruct E as [E _]. apply teq_true in E. apply ok_bind. apply (next_S p k _ H). intros q HQ E1 E2 E3 C. rewrite E in C.
    assert (B : bOf (curr q) = 1%nat) by now rewrite C. apply ok_bind.
    destruct (isLiteral (curr q) (currLit q)); [destruct (parseUint (currLit q))|]; apply ok_ret; vsolve; eexists; fin0.
  - apply ok_bind. apply (next_S p k _ H). intros q HQ E1 E2 E3 C. vsolve; eexists; fin0.
Qed.

Lemma tag_S : forall pe p, fnS pe -> curr p = HASH -> okS p (parseTag X pe p).
Proof.
  intros pe p HP C k H. assert (PK : (0 < k)%nat) by (apply (has_pos _ _ H); congruence). unfold parseTag. rewrite C. cbn [bOf]. apply ok_bind.
  assert (HEAD : ok (parseTagHead X p) (fun r => match r with
    | inl (a, b, q) => exists k', Step 0 p k q k' /\ (0 < k')%nat /\ (one a + one b + 2 * k' <= 2 * k)%nat
    | inr (_, q) => exists k', Step 0 p k q k' end)).
  { unfold parseTagHead.
    assert (DEF : ok (Ok (inl (@None uintLit, @None uintLit, p))) (fun r : (option uintLit * option uintLit * parser) + (diag * parser) => match r with
      | inl (a, b, q) => exists k', Step 0 p k q k' /\ (0 < k')%nat /\ (one a + one b + 2 * k' <= 2 * k)%nat
      | inr (_, q) => exists k', Step 0 p k q k' end)) by (apply ok_ret; exists k; split; [now apply step_refl|cbn [one]; lia]).
    destruct (peekTok p) eqn:EP; try exact DEF; apply ok_bind; apply (next_S p k _ H); intros q HQ E1 E2 E3 CQ; rewrite EP in CQ;
      assert (PQ : (0 < k - 1)%nat) by (apply (has_pos _ _ HQ); congruence).
    - destruct (parseUint (currLit q)); apply ok_ret; exists (k - 1)%nat; fin0.
    - destruct (parseFloatTag q) as [[a c]|d]; apply ok_ret; exists (k - 1)%nat; fin0. }
  eapply ok_mono; [exact HEAD|]. intros [[[a c] q]|[d q]].
  - intros (k1 & (S1 & S2 & S3 & S4 & S5) & P1 & L1). destruct (teq (peekTok q) LPAREN) eqn:EL; [apply teq_true in EL|].
    + apply ok_bind. apply (next_S q k1 _ S1). intros q2 H2 A1 A2 A3 C2. rewrite EL in C2. assert (P2 : (0 < k1 - 1)%nat) by (apply (has_pos _ _ H2); congruence).
      apply ok_bind. apply (next_S q2 _ _ H2). intros q3 H3 B1 B2 B3 _. apply ok_bind. apply (pe_S pe q3 _ _ HP H3). intros n d q4 k4 (D1 & D2 & D3 & D4 & D5) R. destruct d.
      * apply ok_ret. exists k4. fin0.
      * apply ok_bind. unfold expectPeek. destruct (teq (peekTok q4) RPAREN) eqn:ER; [apply teq_true in ER|].
        -- apply (next_S q4 _ _ D1). intros q5 H5 F1 F2 F3 C5. rewrite ER in C5. assert (P5 : (0 < k4 - 1)%nat) by (apply (has_pos _ _ H5); congruence). apply ok_ret. exists (k4 - 1)%nat. fin0.
        -- apply ok_ret. apply ok_ret. exists k4. fin0.
    + apply ok_ret. exists k1. fin0.
  - intros (k1 & (S1 & S2 & S3 & S4 & S5)). apply ok_ret. exists k1. fin0.
Qed.

Lemma runNud_S : forall pe f n p, fnS pe -> chooseNud p = Some n -> okS p (runNud X pe f n p).
Proof.
  intros pe f n p HP HC k H. assert (NE : curr p <> EOF) by (intros K; unfold chooseNud in HC; rewrite K in HC; discriminate HC).
  pose proof (has_pos _ _ H NE) as PK.
  destruct n; cbn [runNud];
    try (unfold parseIdentifier, parseOptional, parseEnumeration, parseUnwrap, parseBooleanLiteral, parseFloatType, parseFloatLiteral, parseUintType, parseUintLiteral, parseIntegerType, parseIntegerLiteral; vsolve; eexists; fin0; fail).
  - unfold parseNamedIdentifier. vsolve. exists k. destruct (z =? 36); fin0.
  - unfold parseUintType, parseUintLiteral. destruct (isLiteral (curr p) (currLit p)); [destruct (parseUint (currLit p))|]; apply ok_ret; eexists; fin0.
  - unfold parseMap. vsolve. eapply ok_mono; [eapply bracketLoop_S; eauto; discriminate|]. intros [[l d] q2] (k' & K1 & K2). apply ok_ret. exists k'. destruct d; fin0.
  - unfold parseGroup. vsolve. eapply ok_mono; [eapply bracketLoop_S; eauto; discriminate|]. intros [[l d] q2] (k' & K1 & K2). apply ok_ret. exists k'. destruct d; fin0.
  - unfold parseArray. vsolve. eapply ok_mono; [eapply bracketLoop_S; eauto; discriminate|]. intros [[l d] q2] (k' & K1 & K2). apply ok_ret. exists k'. destruct d; fin0.
  - eapply ok_mono; [exact (parseComment_S f p k H PK)|]. intros [[n d] q] (-> & k' & K1 & K2 & K3). exists k'. fin0.
  - unfold parsePrefixOccurrence. assert (B : bOf (curr p) = 2%nat).
    { unfold chooseNud in HC. destruct (teq (curr p) IDENT && teq (peekTok p) COLON); [discriminate|]. destruct (curr p); discriminate HC || reflexivity. }
    eapply ok_mono; [exact (occ_S pe _ p HP NE k H)|]. intros [[n d] q] (k' & K1 & K2). exists k'. rewrite B. split; auto.
  - unfold parsePrefixOccurrence. assert (B : bOf (curr p) = 2%nat).
    { unfold chooseNud in HC. destruct (teq (curr p) IDENT && teq (peekTok p) COLON); [discriminate|]. destruct (curr p); discriminate HC || reflexivity. }
    eapply ok_mono; [exact (occ_S pe _ p HP NE k H)|]. intros [[n d] q] (k' & K1 & K2). exists k'. rewrite B. split; auto.
  - apply tag_S; auto. unfold chooseNud in HC. destruct (teq (curr p) IDENT && teq (peekTok p) COLON); [discriminate|]. destruct (curr p); discriminate HC || reflexivity.
Qed.

Lemma entryTrailing_S : forall p k, Has p k -> (0 < k)%nat ->
  ok (entryTrailing X p) (fun a => exists k', Step 0 p k (snd a) k' /\ (0 < k')%nat /\ (one (fst a) + k' <= k)%nat).
Proof.
  intros p k H P. unfold entryTrailing. destruct (teq (peekTok p) COMMENT && isSameLineTokens (pos p) (peekPos p)) eqn:E.
  - apply andb_true_iff in E. destruct E as [E _]. apply teq_true in E. apply ok_bind. apply (next_S p k _ H). intros q HQ E1 E2 E3 C.
    assert (PQ : (0 < k - 1)%nat) by (apply (has_pos _ _ HQ); rewrite C, E; discriminate). apply ok_ret. exists (k - 1)%nat. cbn [fst snd one]. split; [|lia]. fin0.
  - apply ok_ret. exists k. cbn [fst snd one]. split; [now apply step_refl|lia].
Qed.

Lemma runLed_S : forall pe j left p, fnS pe -> curr p <> EOF -> forall k, Has p k ->
  ok (runLed X pe j left p) (fun a => let '(n, d, q) := a in exists k', Step 1 p k q k' /\ (d = None -> 0 < k' /\ size n + 2 * k' <= size left + 2 * k + 2)%nat).
Proof.
  intros pe j left p HP NE k H. pose proof (has_pos _ _ H NE) as PK.
  destruct j; cbn [runLed]; unfold parseTypeChoice, parseComparatorOp, parseSizeOperator, parseRegexp, parseBits, parseComma.
  - unfold parseColon.
    assert (F : forall i, (1 <= size left)%nat -> ok (p1 <- pnext X p;; '(v, d, p2) <- peCurr pe p1;; match d with Some _ => Ok (v, d, p2) | None => '(tc, p3) <- entryTrailing X p2;; Ok (NEntry (pos p) i v tc, None, p3) end)
      (fun a => let '(n, d, q) := a in exists k', Step 1 p k q k' /\ (d = None -> 0 < k' /\ size n + 2 * k' <= size left + 2 * k + 2)%nat)).
    { intros i SL. vsolve; [eexists; fin0|]. match goal with H0 : None = None -> _ |- _ => destruct (H0 eq_refl) as [P0 L0] end.
      match goal with HQ : Has ?q k' |- ok (entryTrailing X ?q) _ => eapply ok_mono; [exact (entryTrailing_S q k' HQ P0)|] end. intros [tc q9] (k9 & K1 & K2 & K3). cbn [fst snd] in *. apply ok_ret. exists k9. fin0. }
    destruct left; try (apply F; cbn [size]; lia); apply ok_ret; exists k; fin0.
  - vsolve; eexists; fin0.
  - vsolve; eexists; fin0.
  - vsolve; eexists; fin0.
  - destruct left; cbn [typeOf]; try (intros ? ?; discriminate); [destruct k0; try (intros ? ?; discriminate)|];
      (destruct (negb (teq (peekTok p) TEXT_LITERAL) && negb (teq (peekTok p) IDENT)); [apply ok_ret; exists k; fin0|]); vsolve; eexists; fin0.
  - vsolve; eexists; fin0.
  - unfold parseBound, parseLitBound, parseIdentBound. destruct left; try (apply ok_ret; exists k; fin0; fail); vsolve; eexists; fin0.
  - eapply ok_mono; [exact (occ_S pe left p HP NE k H)|]. intros [[n d] q] (k' & K1 & K2). exists k'. split; auto. intros D. destruct (K2 D). lia.
  - apply ok_ret. exists k. fin0.
Qed.

Lemma ledLoop_S : forall pe prec, fnS pe -> forall f e p k, Has p k -> (0 < k)%nat ->
  ok (ledLoop X pe f prec e p) (fun a => let '(n, d, q) := a in exists k', Step 0 p k q k' /\ (d = None -> 0 < k' /\ size n + 2 * k' <= size e + 2 * k)%nat).
Proof.
  intros pe prec HP. induction f as [|f IH]; intros e p k H P; cbn [ledLoop];
    (destruct (negb (teq (curr p) COMMA) && (prec <? precedence (peekTok p))); [destruct (ledFor (peekTok p)) as [j|] eqn:EK|]); try (intros ? ?; discriminate);
    try (apply ok_ret; exists k; split; [now apply step_refl|lia]).
  apply ok_bind. apply (next_S p k _ H). intros q HQ E1 E2 E3 C. assert (N : curr q <> EOF) by (intros K; rewrite C in K; rewrite K in EK; discriminate EK).
  pose proof (has_pos _ _ HQ N) as PQ. apply ok_bind. eapply ok_mono; [exact (runLed_S pe j e q HP N _ HQ)|]. intros [[e1 d] q2] (k2 & (S1 & S2 & S3 & S4 & S5) & K2). destruct d.
  - apply ok_ret. exists k2. fin0.
  - destruct (K2 eq_refl) as [P2 L2]. eapply ok_mono; [exact (IH e1 q2 k2 S1 P2)|]. intros [[e2 d2] q3] (k3 & (T1 & T2 & T3 & T4 & T5) & K3). exists k3.
    split; [split; [auto|repeat split; try congruence; lia]|]. intros D. destruct (K3 D). lia.
Qed.

Lemma parseEntry_S : forall f, fnS (parseEntry X f).
Proof.
  induction f as [|f IH]; intros prec p k H; cbn [parseEntry]; [intros ? ?; discriminate|].
  assert (SK : ok (skipComments X f p) (fun q => exists k1, Step 0 p k q k1 /\ (curr p = COMMENT -> k1 < k)%nat /\ (curr p <> COMMENT -> q = p))).
  { unfold skipComments. destruct (teq (curr p) COMMENT) eqn:E.
    - apply teq_true in E. assert (P : (0 < k)%nat) by (apply (has_pos _ _ H); congruence). apply ok_bind.
      eapply ok_mono; [exact (parseComment_S f p k H P)|]. intros [[n d] q] (_ & k1 & (S1 & S2 & S3 & S4 & S5) & P1 & _). apply (next_S q k1 _ S1). intros q2 H2 E1 E2 E3 _.
      exists (k1 - 1)%nat. split; [fin0|]. split; [lia|congruence].
    - apply ok_ret. exists k. split; [now apply step_refl|]. split; [|auto]. intros K. rewrite K in E. discriminate. }
  apply ok_bind. eapply ok_mono; [exact SK|]. intros q (k1 & (S1 & S2 & S3 & S4 & S5) & LT & SQ).
  destruct (chooseNud q) as [n|] eqn:EN; [|apply ok_ret; exists k1; fin0].
  apply ok_bind. eapply ok_mono; [exact (runNud_S _ f n q IH EN k1 S1)|]. intros [[e d] q2] (k2 & (T1 & T2 & T3 & T4 & T5) & K2).
  assert (B : (2 * k1 + bOf (curr q) <= 2 * k + bOf (curr p))%nat).
  { destruct (token_eq_dec (curr p) COMMENT) as [E|E]; [specialize (LT E); pose proof (b2 (curr q)); pose proof (b2 (curr p)); lia|rewrite (SQ E); lia]. }
  destruct d; [apply ok_ret; exists k2; fin0|]. destruct (K2 eq_refl) as [P2 L2]. eapply ok_mono; [exact (ledLoop_S _ prec IH f e q2 k2 T1 P2)|].
  intros [[e2 d2] q3] (k3 & (U1 & U2 & U3 & U4 & U5) & K3). exists k3. split; [split; [auto|repeat split; try congruence; lia]|]. intros D. destruct (K3 D). lia.
Qed.

(** *** Rules *)

Definition er (p : parser) : nat := length (perrors p).
Definition nv (p : parser) : nat := length (env p).

(** One attempt at a rule, with the [next] after it. *)
Lemma parseRule_S : forall rf p k, Has p k -> (0 < k)%nat ->
  ok ('(e, d, p1) <- parseRule X rf p;; p2 <- pnext X (handle p1 d);; Ok (e, p2)) (fun a => let '(e, q) := a in exists k', Has q k' /\
    (k' < k /\ er q + tk q + k' <= er p + tk p + k /\ 3 * nv q + k' <= 3 * nv p + k /\ size e + 2 * k' <= 2 * k /\ er q <= S (er p))%nat).
Proof.
  intros rf p k H P.
  assert (HH : forall q d j, Has q j -> Has (handle q d) j) by (intros q d j (ts & T & E); exists ts; split; auto; now apply toks_handle).
  assert (HE : forall q d, tk (handle q d) = tk q /\ nv (handle q d) = nv q /\ er (handle q d) = (er q + one d)%nat).
  { intros q [d|]; cbn [handle one]; unfold tk, nv, er, addDiag; cbn [tasks env perrors]; rewrite ?app_length; cbn [length]; lia. }
  (* it suffices to say where [parseRule] ends *)
  enough (K : ok (parseRule X rf p) (fun a => let '(e, d, q) := a in exists j, Has q j /\ (j <= k)%nat /\
    (er q + one d + tk q + j <= er p + tk p + k + 1 /\ (j = 0 -> er q + one d + tk q + j <= er p + tk p + k) /\
     3 * nv q + j <= 3 * nv p + k + 1 /\ (j = 0 -> 3 * nv q + j <= 3 * nv p + k) /\
     size e + 2 * j <= 2 * k + 2 /\ (j = 0 -> size e + 2 * j <= 2 * k) /\ er q + one d <= S (er p))%nat)).
  { apply ok_bind. eapply ok_mono; [exact K|]. intros [[e d] q] (j & HJ & L & A1 & A2 & A3 & A4 & A5 & A6 & A7). apply ok_bind.
    apply (next_S _ j _ (HH q d j HJ)). intros q2 H2 E1 E2 E3 _. apply ok_ret. exists (j - 1)%nat. split; auto.
    destruct (HE q d) as (B1 & B2 & B3). assert (er q2 = er q + one d)%nat by (unfold er; rewrite E2; exact B3).
    assert (nv q2 = nv q) by (unfold nv; rewrite E1; exact B2). assert (tk q2 = tk q) by (rewrite E3; exact B1). destruct (Nat.eq_dec j 0); lia. }
  clear HH HE. unfold parseRule.
  assert (ONE : forall q j, Has q j -> tk q = tk p -> env q = env p -> perrors q = perrors p -> (j <= k)%nat -> forall m ps, exists j', Has q j' /\ (j' <= k)%nat /\
    (er q + one (Some (err m ps ps)) + tk q + j' <= er p + tk p + k + 1 /\ (j' = 0 -> er q + one (Some (err m ps ps)) + tk q + j' <= er p + tk p + k) /\
     3 * nv q + j' <= 3 * nv p + k + 1 /\ (j' = 0 -> 3 * nv q + j' <= 3 * nv p + k) /\
     size NNil + 2 * j' <= 2 * k + 2 /\ (j' = 0 -> size NNil + 2 * j' <= 2 * k) /\ er q + one (Some (err m ps ps)) <= S (er p))%nat).
  { intros q j HJ E1 E2 E3 L m ps. exists j. unfold er, nv. rewrite E1, E2, E3. cbn [one size]. split; auto. split; auto. lia. }
  destruct (curr p) eqn:EC; try (apply ok_ret; unfold errorTokenExpected; apply (ONE p k); auto; fail).
  - eapply ok_mono; [exact (parseComment_S rf p k H P)|]. intros [[n d] q] (-> & j & (S1 & S2 & S3 & S4 & S5) & PJ & L). exists j.
    unfold er, nv. rewrite S3, S4. cbn [one]. split; auto. split; auto. lia.
  - apply ok_bind. apply (next_S p k _ H). intros p1 H1 E1 E2 E3 C1.
    assert (VAL : forall prec p2, curr p1 <> EOF -> Has p2 (k - 1 - 1) -> env p2 = env p1 -> perrors p2 = perrors p1 -> tk p2 = tk p1 ->
      ok (parseEntry X rf prec p2) (fun a => let '(e, d, q) := a in exists j, Has q j /\ (1 < k)%nat /\ (j <= k - 2)%nat /\ env q = env p /\ perrors q = perrors p /\
      (tk q + j <= tk p + k - 1)%nat /\ (d = None -> 0 < j /\ size e + 2 * j <= 2 * k - 2)%nat)).
    { intros prec p2 NE1 H2 A1 A2 A3. pose proof (has_pos _ _ H1 NE1). eapply ok_mono; [exact (parseEntry_S rf prec p2 _ H2)|].
      intros [[e d] q] (j & (S1 & S2 & S3 & S4 & S5) & K). exists j. split; auto. split; [lia|]. split; [lia|]. split; [congruence|]. split; [congruence|]. split; [lia|].
      intros D. destruct (K D) as [K1 K2]. pose proof (b2 (curr p2)). lia. }
    assert (TR : forall q j, Has q j -> (0 < j)%nat -> ok (ruleTrailing X q) (fun a => exists j', Has (snd a) j' /\ env (snd a) = env q /\ perrors (snd a) = perrors q /\ tk (snd a) = tk q /\
      (j' <= j /\ one (fst a) + j' <= j /\ (j' = 0 -> one (fst a) + 1 <= j))%nat)).
    { intros q j HJ PJ. unfold ruleTrailing. destruct (teq (peekTok q) COMMENT && isSameLineTokens (pos q) (peekPos q)) eqn:E.
      - apply andb_true_iff in E. destruct E as [E _]. apply teq_true in E. apply ok_bind. apply (next_S q j _ HJ). intros q1 HQ B1 B2 B3 C.
        assert (PQ : (0 < j - 1)%nat) by (apply (has_pos _ _ HQ); rewrite C, E; discriminate). apply ok_bind. apply (next_S q1 _ _ HQ). intros q2 HQ2 D1 D2 D3 _. apply ok_ret. exists (j - 1 - 1)%nat. cbn [fst snd one].
        split; auto. split; [congruence|]. split; [congruence|]. split; [congruence|]. lia.
      - apply ok_ret. exists j. cbn [fst snd one]. repeat split; auto; lia. }
    destruct (curr p1) eqn:EC1; try (apply ok_ret; apply (ONE p1 (k - 1)%nat); auto; lia).
    all: apply ok_bind; apply (next_S p1 _ _ H1); intros p2 H2 A1 A2 A3 _; apply ok_bind;
      (eapply ok_mono; [apply (VAL _ p2); auto; discriminate|]); intros [[e d] q] (j & HJ & LK & LJ & F1 & F2 & F3 & F4); (destruct d as [d|];
      [apply ok_ret; exists j; unfold er, nv; rewrite F1, F2; cbn [one size]; split; auto; split; lia|]);
      destruct (F4 eq_refl) as [F5 F6]; apply ok_bind; (eapply ok_mono; [exact (TR q j HJ F5)|]); intros [tc q2] (j2 & G1 & G2 & G3 & G4 & G5 & G6 & G7); cbn [fst snd] in *.
    2, 3: apply ok_ret; exists j2; unfold er, nv; rewrite G2, G3, F1, F2; cbn [one size]; (split; [auto|]); split; lia.
    apply ok_bind. unfold registerRule. destruct (add (env q2) _ e) as [e' dup] eqn:EA.
    assert (LE : (length e' <= S (length (env q2)) /\ (dup = true -> length e' = length (env q2)))%nat).
    { unfold add in EA. destruct (exists_ (env q2) _); injection EA as <- <-; rewrite ?app_length; cbn [length]; split; try lia; discriminate. }
    rewrite G2, F1 in LE. assert (HS : Has (setEnv q2 e') j2) by (destruct G1 as (ts & T & E); exists ts; split; auto; now apply toks_setEnv).
    destruct dup.
    + apply ok_bind. apply ok_any. intros s0. apply ok_ret. apply ok_ret. exists j2. destruct LE as [_ LE]. specialize (LE eq_refl).
      split; [destruct HS as (ts & T & E); exists ts; split; auto; now apply toks_addDiag|]. unfold er, nv, tk, addDiag, setEnv in *. cbn [env perrors tasks] in *. rewrite app_length. cbn [length one size]. rewrite G3, F2. split; lia.
    + apply ok_ret. apply ok_ret. exists j2. destruct LE as [LE _]. split; [exact HS|]. unfold er, nv, tk, setEnv in *. cbn [env perrors tasks one size] in *. rewrite G3, F2. split; lia.
Qed.

Lemma fileLoop_S : forall rf f acc p k, Has p k ->
  ok (fileLoop X rf f acc p) (fun a => let '(l, q) := a in
    er q + tk q <= er p + tk p + k /\ 3 * nv q <= 3 * nv p + k /\ list_sum (map size l) <= list_sum (map size acc) + 2 * k /\ er q <= er p + k)%nat.
Proof.
  intros rf. induction f as [|f IH]; intros acc p k H; cbn [fileLoop]; destruct (teq (curr p) EOF) eqn:E; try (intros ? ?; discriminate); try (apply ok_ret; lia).
  assert (P : (0 < k)%nat) by (apply (has_pos _ _ H); intros K; rewrite K in E; discriminate).
  pose proof (parseRule_S rf p k H P) as R. destruct (parseRule X rf p) as [[[e d] p1]| | |]; cbn [rbind] in *; try (intros ? ?; discriminate).
  destruct (pnext X (handle p1 d)) as [p2| | |]; cbn [rbind] in *; try (intros ? ?; discriminate). destruct (R _ eq_refl) as (k' & HK & L1 & L2 & L3 & L4 & L5).
  eapply ok_mono; [exact (IH _ p2 k' HK)|]. intros [l q] (M1 & M2 & M3 & M4).
  assert (L : (list_sum (map size (if notNil e then acc ++ [e] else acc)) <= list_sum (map size acc) + size e)%nat).
  { destruct (notNil e); [|lia]. rewrite map_app, list_sum_app. simpl. lia. }
  lia.
Qed.

End Proof.

Lemma fold_er : forall e l p, let q := fold_left (fun q t => handle q (runTask e t)) l p in (er q <= er p + length l)%nat /\ env q = env p.
Proof.
  intros e. induction l as [|t l IH]; intros p; cbn [fold_left length]; [split; [lia|reflexivity]|]. destruct (IH (handle p (runTask e t))) as [I1 I2].
  assert (er (handle p (runTask e t)) <= S (er p) /\ env (handle p (runTask e t)) = env p)%nat as [A1 A2]; [|split; [lia|congruence]].
  destruct (runTask e t); cbn [handle]; [|split; [lia|reflexivity]]. unfold er, addDiag. cbn [perrors env]. rewrite app_length. simpl. split; [lia|reflexivity].
Qed.

Lemma listed_collect : forall l, length (listed (collect l)) = length l.
Proof. intros [|d l]; reflexivity. Qed.

Lemma source_S : forall X s e ts f root ds p fuel, Str X (newLexer s) ts f -> parseSource X fuel s e = Ok ((Some root, ds), p) ->
  (size root <= 1 + 2 * length ts /\ length (listed ds) <= length ts /\ 3 * length (env p) <= 3 * length e + length ts)%nat.
Proof.
  intros X s e ts f root ds p fuel HS H. unfold parseSource in H. destruct (newParser_toks X (newLexer s) e ts f HS) as [(E & _)|(p0 & l1 & t1 & t2 & E & T & E1 & E2 & E3 & _)]; rewrite E in H; [discriminate|].
  cbn [rbind] in H. unfold parseFile in H. destruct (errors (lx p0)); [|discriminate].
  destruct (fileLoop X fuel fuel [] p0) as [[l q]| | |] eqn:EL; try discriminate. cbn [rbind] in H. injection H as <- <- <-.
  destruct (fileLoop_S X f fuel fuel [] p0 (length ts) (ex_intro _ ts (conj T eq_refl)) _ EL) as (L1 & L2 & L3 & _).
  destruct (fold_er (env q) (tasks q) q) as [F1 F2]. fold (runTasks q) in F1, F2. rewrite listed_collect, F2.
  unfold er, tk, nv in *. rewrite E1, E2, E3 in *. change (list_sum (map size [])) with 0%nat in L3. cbn [length size] in *. lia.
Qed.

Lemma str_tokens : forall X l v f, Str X l v f -> forall ts t l', scans X (S (length ts)) l = Ok (ts ++ [t], l') -> tTok t = EOF -> Forall (fun t => tTok t <> EOF) ts -> ts = v.
Proof.
  intros X l v f H. induction H as [l a l1 v f HS HE HR IH|l HS|l a HE HQ]; intros ts t l' S ET F.
  - cbn [scans] in S. rewrite HS in S. cbn [rbind] in S. destruct ts as [|b ts].
    + cbn [length scans rbind app] in S. injection S as <- _. congruence.
    + cbn [length app] in S. destruct (scans X (Datatypes.S (length ts)) l1) as [[us l2]| | |] eqn:EU; try discriminate. cbn [rbind] in S. injection S as <- -> _. f_equal.
      eapply IH; eauto. now inversion F.
  - cbn [scans] in S. rewrite HS in S. discriminate.
  - destruct ts as [|b ts]; auto. exfalso. destruct (HQ (Datatypes.S (length (b :: ts)))) as [l2 Q]. rewrite Q in S. cbn [repeat app] in S. injection S as <- _ _. inversion F. congruence.
Qed.

(** With [k] tokens: at most [2k + 1] nodes, at most [k] diagnostics, and at most [k / 3] new
    definitions. *)
Theorem C100_tokens : forall X s e ts root ds p, tokensOf X s ts -> decodable s -> parseSource X (parseFuel s) s e = Ok ((Some root, ds), p) ->
  (size root <= 2 * length ts + 1 /\ length (listed ds) <= length ts /\ 3 * length (env p) <= 3 * length e + length ts)%nat.
Proof.
  intros X s e ts root ds p (t & l & S & ET & F) D H. destruct (new_str X s D) as (v & f & k & HS & _). rewrite (str_tokens _ _ _ _ HS _ _ _ S ET F).
  destruct (source_S _ _ _ _ _ _ _ _ _ HS H) as (A & B & C). lia.
Qed.

(** In bytes. *)
Theorem C100_bytes : forall X s e root ds p, bytesOk s -> parseSource X (parseFuel s) s e = Ok ((Some root, ds), p) ->
  (size root <= 2 * length s + 1 /\ length (listed ds) <= length s /\ 3 * length (env p) <= 3 * length e + length s)%nat.
Proof.
  intros X s e root ds p B H.
  assert (G : decodable s -> (size root <= 2 * length s + 1 /\ length (listed ds) <= length s /\ 3 * length (env p) <= 3 * length e + length s)%nat).
  { intros D. destruct (new_str X s D) as (v & f & k & HS & _ & _ & L & _). destruct (source_S _ _ _ _ _ _ _ _ _ HS H) as (A & B' & C). lia. }
  destruct (le_dec (size root) (2 * length s + 1)) as [G1|G1]; [destruct (le_dec (length (listed ds)) (length s)) as [G2|G2]; [destruct (le_dec (3 * length (env p)) (3 * length e + length s)) as [G3|G3]; [auto|]|]|];
    exfalso; (assert (D : ~ decodable s) by (intros D; destruct (G D) as (K1 & K2 & K3); lia)); pose proof (C47_no_tree_unless_decodable _ _ _ _ _ _ B D H); discriminate.
Qed.

(** ** The bounds are reached *)

(** Without names and comments every token is reported. *)
Lemma fileLoop_all : forall X fi rf f acc p ts l q, Toks X p ts fi -> Forall (fun t => tTok t <> IDENT /\ tTok t <> COMMENT) ts ->
  fileLoop X rf f acc p = Ok (l, q) -> er q = (er p + length ts)%nat /\ tasks q = tasks p /\ env q = env p /\ l = acc.
Proof.
  intros X fi rf. induction f as [|f IH]; intros acc p ts l q T F H; cbn [fileLoop] in H; destruct (teq (curr p) EOF) eqn:E; try discriminate.
  1, 2: apply teq_true in E; apply (toks_curr_eof _ _ _ _ T) in E; subst ts; injection H as <- <-; cbn [length]; repeat split; auto.
  destruct ts as [|t ts]; [exfalso; rewrite (proj2 (toks_curr_eof _ _ _ _ T) eq_refl) in E; discriminate|]. apply Forall_cons_iff in F. destruct F as [[N1 N2] F].
  assert (C : curr p = tTok t) by (unfold curr; now rewrite (toks_cur _ _ _ _ _ T)).
  assert (R : parseRule X rf p = Ok (NNil, Some (errorTokenExpected (pos p) IDENT), p)) by (unfold parseRule; rewrite C; destruct (tTok t); congruence).
  rewrite R in H. cbn [rbind handle notNil] in H. destruct (pnext X (addDiag p _)) as [p2| | |] eqn:E2; try discriminate. cbn [rbind] in H.
  destruct (pnext_ok _ _ _ _ _ (toks_addDiag _ _ _ _ (errorTokenExpected (pos p) IDENT) T) E2) as [T2 (S1 & S2 & S3)]. cbn [tl] in T2.
  destruct (IH _ _ _ _ _ T2 F H) as (K1 & K2 & K3 & K4). split; [|split; [rewrite K2, S3; reflexivity|split; [rewrite K3, S2; reflexivity|exact K4]]].
  rewrite K1. unfold er. rewrite S1. unfold addDiag. cbn [perrors length]. rewrite app_length. simpl. lia.
Qed.

Theorem C100_all_reported : forall X s e ts root ds p, tokensOf X s ts -> decodable s -> Forall (fun t => tTok t <> IDENT /\ tTok t <> COMMENT) ts ->
  parseSource X (parseFuel s) s e = Ok ((Some root, ds), p) -> root = NCDDL zeroPos [] /\ length (listed ds) = length ts /\ env p = e.
Proof.
  intros X s e ts root ds p (t & l & S & ET & F) D N H. destruct (new_str X s D) as (v & f & k & HS & _). rewrite (str_tokens _ _ _ _ HS _ _ _ S ET F) in *. clear S F.
  unfold parseSource in H. destruct (newParser_toks X (newLexer s) e v f HS) as [(E & _)|(p0 & l1 & t1 & t2 & E & T & E1 & E2 & E3 & _)]; rewrite E in H; [discriminate|].
  cbn [rbind] in H. unfold parseFile in H. destruct (errors (lx p0)); [|discriminate].
  destruct (fileLoop X (parseFuel s) (parseFuel s) [] p0) as [[r q]| | |] eqn:EL; try discriminate. cbn [rbind] in H. injection H as <- <- <-.
  destruct (fileLoop_all _ _ _ _ _ _ _ _ _ T N EL) as (K1 & K2 & K4 & ->). unfold runTasks. rewrite K2, E3. cbn [fold_left]. rewrite listed_collect.
  unfold er in K1. rewrite E1 in K1. split; auto. split; [exact K1|]. congruence.
Qed.

(** Twice as many nodes as tokens. *)
Fixpoint stars (k : nat) : expr := match k with O => XAtom (AType INT) | S k => XPrefix PreStar (stars k) end.
Definition starDoc (k : nat) : doc := mkDoc [([], mkDRule (str "x") ASSIGN (stars k))] [].

Lemma size_strip : forall n, size (strip n) = size n.
Proof.
  assert (O : forall A B (g : A -> B) o, one (option_map g o) = one o) by (intros A B g []; reflexivity).
  induction n as [n IH] using kids_ind. destruct n; cbn [strip size kids] in *; rewrite ?O; repeat (apply Forall_cons_iff in IH as [? IH]); rewrite ?map_length; try congruence.
  all: do 2 f_equal; rewrite map_map; apply map_ext_in; rewrite Forall_forall in IH; exact IH.
Qed.

Lemma str_tokensOf : forall X s ts eof, Str X (newLexer s) ts (FEof eof) -> tokensOf X s ts.
Proof.
  intros X s ts eof H. pose proof (str_ne _ _ _ _ H) as F. pose proof (str_eofTok _ _ _ _ H) as E. enough (K : exists l', scans X (S (length ts)) (newLexer s) = Ok (ts ++ [eof], l')) by (destruct K as (l & K); exists eof, l; auto).
  clear E F. remember (FEof eof) as f. generalize dependent (newLexer s). intros l H. induction H as [l a l1 v f HS HE HR IH|l HS|l a HE HQ]; try discriminate.
  - destruct (IH Heqf) as (l2 & K). exists l2. change (length (a :: v)) with (S (length v)). remember (S (length v)) as m. cbn [scans]. rewrite HS. cbn [rbind]. rewrite K. reflexivity.
  - injection Heqf as <-. exact (HQ 1%nat).
Qed.

Lemma laid_length : forall p ts xs, Laid p ts xs -> length ts = length xs.
Proof. intros p ts xs H. induction H; simpl; auto. Qed.

Theorem C100_reached : forall X k, exists s ts root p, tokensOf X s ts /\ clean X s [] root p /\ length ts = (k + 3)%nat /\ size root = (2 * length ts - 2)%nat.
Proof.
  intros X k.
  assert (W : wfDoc X (starDoc k)).
  { split; [|constructor]. constructor; [|constructor]. split; [constructor|]. cbn [snd]. split; [|split; [|split]]. all: cbn [rName rAssign rBody]. 
    - wf_by.
    - now left.
    - induction k as [|k IH]; cbn [stars wf]; [cbn; tauto|]. split; auto. intros _. destruct k; reflexivity.
    - intros c. assert (Z : spine (stars k) = None) by (clear; induction k; auto). rewrite Z. discriminate. }
  assert (R : resolved [] (starDoc k)).
  { split; [repeat constructor; auto|]. intros w. assert (Z : refs (stars k) = []) by (clear; induction k; auto). cbn. rewrite Z. intros []. }
  destruct (C16_round_trip X [] (starDoc k)) as (root & p & defs & C & T & _); auto; [split; constructor|].
  destruct (writes_tokens X _ _ (printDoc_writes X _ W)) as (ts & eof & K1 & K2).
  exists (printDoc (starDoc k)), ts, root, p. split; [eapply str_tokensOf; eauto|]. split; auto.
  assert (L : length ts = (k + 3)%nat).
  { rewrite (laid_length _ _ _ K2). cbn. rewrite app_length. assert (Z : length (show (stars k) false) = S k) by (clear; induction k; cbn in *; auto). rewrite Z. simpl. lia. }
  split; auto. rewrite L, <- size_strip, T. cbn. assert (Z : size (tree (stars k)) = (2 * k + 1)%nat) by (clear; induction k; cbn in *; lia). lia.
Qed.

Lemma fileLoop_runs : forall X t rf f acc p ts, Toks X p ts (FEof t) -> Forall (fun t => tTok t <> IDENT /\ tTok t <> COMMENT) ts -> (length ts <= f)%nat ->
  exists r, fileLoop X rf f acc p = Ok r.
Proof.
  intros X eof rf. induction f as [|f IH]; intros acc p ts T F L; cbn [fileLoop].
  - destruct ts; [|simpl in L; lia]. rewrite (proj2 (toks_curr_eof _ _ _ _ T) eq_refl). cbn. eauto.
  - destruct (teq (curr p) EOF) eqn:E; [eauto|]. destruct ts as [|t ts]; [exfalso; rewrite (proj2 (toks_curr_eof _ _ _ _ T) eq_refl) in E; discriminate|]. apply Forall_cons_iff in F. destruct F as [[N1 N2] F].
    assert (C : curr p = tTok t) by (unfold curr; now rewrite (toks_cur _ _ _ _ _ T)).
    assert (R : parseRule X rf p = Ok (NNil, Some (errorTokenExpected (pos p) IDENT), p)) by (unfold parseRule; rewrite C; destruct (tTok t); congruence).
    rewrite R. cbn [rbind handle notNil]. destruct (pnext_eof _ _ _ _ (toks_addDiag _ _ _ _ (errorTokenExpected (pos p) IDENT) T)) as (p2 & E2 & T2 & _). rewrite E2. cbn [rbind]. apply (IH acc p2 ts); auto. simpl in L. lia.
Qed.

Theorem C100_all_reached : forall X k, exists s ts ds p, tokensOf X s ts /\ length ts = k /\ parseSource X (parseFuel s) s [] = Ok ((Some (NCDDL zeroPos []), ds), p) /\ length (listed ds) = k.
Proof.
  intros X k. set (xs := repeat (lx1 RPAREN) k). assert (W : writes (printFrom false xs) xs).
  { apply print_writes; [apply Forall_forall; intros x I; apply repeat_spec in I; subst x; used|]. unfold xs. clear. generalize false. induction k as [|k IH]; intros b; cbn [repeat sameOk]; auto. split; [discriminate|apply IH]. }
  set (s := printFrom false xs) in *. destruct (writes_tokens X s xs W) as (ts & eof & K1 & K2). destruct W as (items & W1 & W2).
  pose proof (spaced_good _ _ W1) as D. destruct (str_scans_ok _ _ _ _ K1 eof 2%nat eq_refl) as (t2 & l2 & E2). destruct (C06_spaced_no_errors X s items 2 t2 l2 W1 E2) as [K3 _].
  assert (L : length ts = k) by (rewrite (laid_length _ _ _ K2); apply repeat_length).
  assert (F : Forall (fun t => tTok t <> IDENT /\ tTok t <> COMMENT) ts).
  { assert (G : Forall (fun x => xTok x = RPAREN) xs) by (apply Forall_forall; intros x I; apply repeat_spec in I; now subst x). clear - K2 G. induction K2; constructor; inversion G; subst; auto. split; congruence. }
  destruct (newParser_toks X (newLexer s) [] ts _ K1) as [(_ & E & _)|(p0 & l1 & t1 & t3 & E & T & E1 & E3 & E4 & S1 & S2)]; [discriminate|].
  destruct (new_str X s D) as (v & f & k' & HS & _ & _ & LS & _). destruct (str_fun _ _ _ _ K1 _ _ HS) as [<- _].
  assert (LX : errors (lx p0) = []) by (cbn [scans] in E2; rewrite S1 in E2; cbn [rbind] in E2; rewrite S2 in E2; cbn [rbind] in E2; injection E2 as _ <-; exact K3).
  destruct (fileLoop_runs X eof (parseFuel s) (parseFuel s) [] p0 ts T F) as ([l q] & R); [unfold parseFuel; lia|].
  assert (H : exists ds p, parseSource X (parseFuel s) s [] = Ok ((Some (NCDDL zeroPos l), ds), p)).
  { unfold parseSource. rewrite E. cbn [rbind]. unfold parseFile. rewrite LX, R. cbn [rbind]. eauto. }
  destruct H as (ds & p & H). pose proof (str_tokensOf _ _ _ _ K1) as TO. destruct (C100_all_reported X s [] ts _ ds p TO D F H) as (Q1 & Q2 & _). injection Q1 as ->.
  exists s, ts, ds, p. repeat split; auto. congruence.
Qed.

(** A rule that refers to a name that is not defined: 13 tokens, 14 nodes, a diagnostic and
    a definition. *)
Definition sizeSrc : bytes := str "a = [* 3 b, ? c: int] ; d".
Definition sizeToks : list tokInfo := match scans X0 13 (newLexer sizeSrc) with Ok (ts, _) => ts | _ => [] end.

Example C100_ex : tokensOf X0 sizeSrc sizeToks /\ decodable sizeSrc /\ length sizeToks = 13%nat /\
  exists root ds p, parse X0 sizeSrc = Ok ((Some root, ds), p) /\ size root = 14%nat /\ length (listed ds) = 1%nat /\ length (env p) = 1%nat.
Proof.
  assert (L : length sizeToks = 13%nat) by (vm_compute; reflexivity).
  split; [|split; [now apply good_by_ascii|split; [exact L|]]].
  - unfold tokensOf. rewrite L. eexists. eexists. split; [vm_compute; reflexivity|]. split; [reflexivity|]. apply Forall_forall. intros t I.
    assert (B : forallb (fun t => negb (teq (tTok t) EOF)) sizeToks = true) by (vm_compute; reflexivity). rewrite forallb_forall in B. specialize (B t I). intros E. rewrite E in B. discriminate.
  - do 3 eexists. split; [vm_compute; reflexivity|]. repeat split.
Qed.
