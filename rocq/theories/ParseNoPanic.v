(** Token streams on which the parser cannot crash. *)
From Coq Require Import String.
From Verif Require Import Base Token Strconv Ext Lexer Ast Env Diag Parser ParseSpec ParseStream ParseFacts
  ParseSound ParseLoop ParseTop ParseTree.
Open Scope string_scope.
Open Scope list_scope.
Open Scope Z_scope.

(** * The condition on tokens *)

(** Kinds of the one-token entries. *)
Definition atomTok (k : token) : bool :=
  match k with
  | IDENT | BOOL | TRUE | FALSE | TSTR | TEXT | TEXT_LITERAL | FLOAT | FLOAT16 | FLOAT32 | FLOAT64
  | UINT | INT | NINT | BSTR | BYTES | NULL | NIL => true
  | _ => false
  end.

(** Kinds after which an operand must follow. *)
Definition starter (k : token) : bool :=
  match k with
  | COMMA | LPAREN | LBRACE | LBRACK | ASSIGN | TYPE_CHOICE_ASSIGN | GROUP_CHOICE_ASSIGN | COLON | ARROW_MAP
  | TYPE_CHOICE | GROUP_CHOICE | OPTIONAL | UNWRAP | AMPERSAND => true
  | _ => false
  end.

Definition occTok (k : token) : Prop := k = ZERO_OR_MORE \/ k = ONE_OR_MORE.

(** [calmAt before t after nx]: the token [t] with the tokens before it (nearest
    first) and after it. *)
Definition calmAt (before : list tokInfo) (t : tokInfo) (after : list tokInfo) (eof : tokInfo) : Prop :=
  (tTok t = IDENT -> tLit t <> []) /\
  (tTok t = REGEXP -> match before with a :: _ => tTok a = TSTR \/ tTok a = TEXT | [] => True end) /\
  (occTok (tTok t) ->
     match before with
     | a :: more => starter (tTok a) = true \/
         (atomTok (tTok a) = true /\
          match more with b :: _ => ~ (tTok b = HASH /\ (tTok a = INT \/ tTok a = FLOAT)) | [] => True end)
     | [] => True
     end) /\
  (tTok t = BITS -> tTok (nextOf after eof) = IDENT /\
     (tTok (nextOf (tl after) eof) = COMMA \/ infixTok (tTok (nextOf (tl after) eof)) = false)).

Definition Calm (ts : list tokInfo) (eof : tokInfo) : Prop :=
  forall u t r, ts = u ++ t :: r -> calmAt (rev u) t r eof.

Lemma calmAt_less : forall b c t r eof, calmAt (b ++ c) t r eof -> calmAt b t r eof.
Proof.
  intros b c t r eof (H1 & H2 & H3 & H4). split; [auto|]. split; [|split; auto].
  - intros E. specialize (H2 E). destruct b; auto.
  - intros E. specialize (H3 E). destruct b as [|a [|x b]]; auto.
    simpl in H3. destruct H3 as [H3|[H3 _]]; auto.
Qed.

Lemma calm_suf : forall a b eof, suf a b -> Calm b eof -> Calm a eof.
Proof.
  intros a b eof [c ->] H u t r ->. specialize (H (c ++ u) t r). rewrite <- app_assoc in H. specialize (H eq_refl).
  rewrite rev_app_distr in H. eapply calmAt_less; eauto.
Qed.

Lemma calm_tl : forall t ts eof, Calm (t :: ts) eof -> Calm ts eof.
Proof. intros t ts eof. apply calm_suf. apply suf_cons, suf_refl. Qed.

(** * Last tokens *)

Definition lastOk (k : token) : Prop := starter k = true -> k = COMMA.

Lemma grammar_last : forall X,
  (forall u nx n tk, Entry X u nx n tk -> forall t r, u = t :: r -> lastOk (tTok (lastOf r t))) /\
  (forall u nx n tk, Nud X u nx n tk -> forall t r, u = t :: r -> lastOk (tTok (lastOf r t))) /\
  (forall lst l u nx n tk, Tail X lst l u nx n tk -> lastOk (tTok lst) -> lastOk (tTok (lastOf u lst))) /\
  (forall es c ns tk, Entries X es c ns tk -> True).
Proof.
  intros X.
  assert (HT : forall k, starter k = false -> lastOk k) by (intros k H E; congruence).
  assert (HNum : forall num nx a b o, TagNum num nx a b -> tTok o = HASH -> lastOk (tTok (lastOf num o))).
  { intros num nx a b o H Ho. inversion H; subst; apply HT; cbn; rewrite ?Ho; reflexivity. }
  apply grammar_ind; auto.
  - intros cms t u tl nx n tk m tk' HC HN IN HT0 IT t0 r E. specialize (IN t u eq_refl). specialize (IT IN).
    rewrite <- lastOf_app2 in IT.
    destruct cms as [|c cms]; simpl in E; inversion E; subst; auto.
    now rewrite lastOf_app.
  - intros t nx n tk HA t0 r E. inversion E; subst. apply HT. cbn. inversion HA; subst; cbn; auto;
      try (match goal with H : floatTok _ |- _ => unfold floatTok in H; simpl in H; intuition (subst; auto) end);
      match goal with H : _ \/ _ |- _ => destruct H as [-> | ->]; reflexivity end.
  - intros o c es nx ns tk Ho Hc HE _ t r E. inversion E; subst. rewrite lastOf_snoc, Hc. apply HT; reflexivity.
  - intros o c es nx ns tk Ho Hc HE _ t r E. inversion E; subst. rewrite lastOf_snoc, Hc. apply HT; reflexivity.
  - intros o c es nx ns tk Ho Hc HE _ t r E. inversion E; subst. rewrite lastOf_snoc, Hc. apply HT; reflexivity.
  - intros o e nx n tk Ho HE IE t r E. inversion E; subst. apply Entry_ne in HE. destruct r as [|x r]; [congruence|].
    rewrite lastOf_cons. auto.
  - intros o e nx n tk Ho HE IE t r E. inversion E; subst. apply Entry_ne in HE. destruct r as [|x r]; [congruence|].
    rewrite lastOf_cons. auto.
  - intros o e nx n tk Ho HE IE t r E. inversion E; subst. apply Entry_ne in HE. destruct r as [|x r]; [congruence|].
    rewrite lastOf_cons. auto.
  - intros o t e nx n up tk Ho HU HE IE t0 r E. inversion E; subst. rewrite lastOf_cons. auto.
  - intros o t e nx n up tk Ho HU HE IE t0 r E. inversion E; subst. rewrite lastOf_cons. auto.
  - intros o num nx mj nm Ho Hn HG t r E. inversion E; subst. eapply HNum; eauto.
  - intros o num lp e nx nx' close mj nm n tk Ho Hl HG En HE IE HC t r E. injection E as <- <-.
    rewrite lastOf_app. apply Entry_ne in HE. destruct e as [|x e]; [congruence|].
    destruct HC as [[HC1 HC]|[HC1 HC]]; rewrite HC1.
    + rewrite lastOf_snoc. rewrite HC. apply HT; reflexivity.
    + rewrite app_nil_r, lastOf_cons. auto.
  - intros lst l c nx H1 H2 _ _. exact H2.
  - intros lst l op t e nx v m tk tk' H1 HE IE HI _. rewrite !lastOf_cons. auto.
  - intros lst l op t e nx i v tk H1 H2 HK HE IE HN _. rewrite !lastOf_cons. auto.
  - intros lst l op t e c tl nx i v m tk tk' H1 H2 HK HE IE [HC _] HT0 IT _. rewrite !lastOf_cons, lastOf_app.
    apply IT. rewrite HC. apply HT; reflexivity.
  - intros lst l op tl nx m tk H1 H2 HB HT0 IT _. rewrite lastOf_cons. apply IT.
    apply HT. destruct H2 as [-> | ->]; reflexivity.
Qed.

(** * Not panicking *)

Lemma np_bind : forall A B (e : res A) (k : A -> res B),
  e <> Panic -> (forall a, e = Ok a -> k a <> Panic) -> rbind e k <> Panic.
Proof. intros A B [] k H HK; simpl; auto; discriminate. Qed.

Lemma np_pnext : forall X p ts eof, Toks X p ts (FEof eof) -> pnext X p <> Panic.
Proof. intros X p ts eof H. destruct (pnext_eof _ _ _ _ H) as (p' & -> & _). discriminate. Qed.

Lemma ok_wp : forall A (e : res A) (Q : A -> Prop) a, wp e Q -> e = Ok a -> Q a.
Proof. intros A e Q a H ->. exact H. Qed.

(** What is known of recursive calls, besides [PE]. *)
Definition NPE (X : Ext) (N : nat) (pe : entryFn) : Prop :=
  (forall p ts eof, Toks X p ts (FEof eof) -> (length ts < N)%nat -> Calm ts eof -> peCurr pe p <> Panic) /\
  (forall p t ts eof n d p', Toks X p (t :: ts) (FEof eof) -> tTok t = IDENT -> tLit t <> [] ->
     (peekTok p = COMMA \/ infixTok (peekTok p) = false) -> peCurr pe p <> Ok (n, Some d, p')).

Ltac npnext HT p' T' :=
  apply np_bind; [eapply np_pnext; exact HT|];
  let E := fresh "E" in intros p' E; destruct (pnext_ok _ _ _ _ _ HT E) as [T' _]; cbn [tl] in T'; clear E.

Section NoPanic.
  Context (X : Ext) (N : nat) (pe : entryFn) (HPE : PE X N pe) (HNP : NPE X N pe).

  (** After a recursive call the parser stands on a later token, and where it
      stopped without a diagnostic the entry is over. *)
  Lemma sub_np : forall p ts eof (k : node * option diag * parser -> pres),
    Toks X p ts (FEof eof) -> (length ts < N)%nat -> Calm ts eof ->
    (forall n d p' ts', Toks X p' ts' (FEof eof) -> suf ts' ts -> peCurr pe p = Ok (n, d, p') -> k (n, d, p') <> Panic) ->
    rbind (peCurr pe p) k <> Panic.
  Proof.
    intros p ts eof k HT HL HC HK. apply np_bind; [eapply (proj1 HNP); eauto|].
    intros [[n d] p'] E. pose proof (HPE (fun _ => True) p ts (FEof eof) HT HL (conj (proj2 (Forall_forall _ _) (fun _ _ => I)) (fun _ => I))) as W.
    rewrite E in W. cbn [wp] in W. destruct W as (ts' & tk & K1 & K2 & _). eapply HK; eauto.
  Qed.

  Lemma sub_over : forall p ts eof n p', Toks X p ts (FEof eof) -> (length ts < N)%nat ->
    peCurr pe p = Ok (n, None, p') -> over (curr p') (peekTok p') /\ lastOk (curr p').
  Proof.
    intros p ts eof n p' HT HL E.
    pose proof (HPE (fun _ => True) p ts (FEof eof) HT HL (conj (proj2 (Forall_forall _ _) (fun _ _ => I)) (fun _ => I))) as W.
    rewrite E in W. cbn [wp] in W. destruct W as (ts' & tk & K1 & _ & _ & _ & _ & _ & t & u & rest & _ & -> & HE).
    unfold curr, peekTok. rewrite (toks_cur _ _ _ _ _ K1). split.
    - eapply Entry_over; eauto.
    - eapply (proj1 (grammar_last X)); eauto.
  Qed.

  Context (p : parser) (t0 : tokInfo) (ts : list tokInfo) (eof : tokInfo).
  Context (HT : Toks X p (t0 :: ts) (FEof eof)) (HL : (length ts < N)%nat) (HC : Calm (t0 :: ts) eof).

  Let HCt : Calm ts eof := calm_tl t0 ts eof HC.

  Ltac easy_sub := eapply sub_np; [eassumption|assumption|assumption|];
    let n := fresh "n" in let d := fresh "d" in let p' := fresh "p'" in let ts' := fresh "ts'" in
    let K1 := fresh "K" in let K2 := fresh "K" in let E := fresh "E" in
    intros n d p' ts' K1 K2 E; destruct d; try discriminate.

  Lemma prefix_np : forall (g : node -> option diag -> parser -> pres),
    (forall n d p', g n d p' <> Panic) ->
    (p1 <- pnext X p;; '(n, d, p2) <- peCurr pe p1;; g n d p2) <> Panic.
  Proof.
    intros g HG. npnext HT p1 T1. eapply sub_np; eauto.
  Qed.

  Lemma occUpper_np : occUpper X p <> Panic.
  Proof.
    unfold occUpper. destruct (teq (peekTok p) INT && isLiteral (peekTok p) (peekLit p)).
    - npnext HT p1 T1. unfold parseUintType, parseUintLiteral. destruct (isLiteral (curr p1) (currLit p1)); [|discriminate].
      destruct (parseUint (currLit p1)); discriminate.
    - npnext HT p1 T1. discriminate.
  Qed.

  (** An occurrence whose lower bound does not crash. *)
  Lemma occ_np : forall l, occLower l p <> Panic -> parseOccurrence X pe l p <> Panic.
  Proof.
    intros l HLo. unfold parseOccurrence. apply np_bind; auto. intros [lo|d] _; [|discriminate].
    apply np_bind; [apply occUpper_np|]. intros [[up p1]|[d p1]] E; [|discriminate].
    assert (T1 : Toks X p1 ts (FEof eof)).
    { pose proof (occUpper_post X N (fun _ => True) p t0 ts (FEof eof) HT HL
        (conj (proj2 (Forall_forall _ _) (fun _ _ => I)) (fun _ => I))
        (fun r => match r with inl (_, q) => Toks X q ts (FEof eof) | inr _ => True end)) as W.
      eapply ok_wp in E; [|apply W]; auto. }
    easy_sub.
  Qed.

  Lemma tag_np : parseTag X pe p <> Panic.
  Proof.
    unfold parseTag. apply np_bind.
    - unfold parseTagHead. destruct (peekTok p); try discriminate; npnext HT p1 T1.
      + destruct (parseUint (currLit p1)); discriminate.
      + destruct (parseFloatTag p1) as [[a b]|d]; discriminate.
    - intros [[[mj nm] p1]|[d p1]] E; [|discriminate].
      assert (T1 : exists t1 ts1, Toks X p1 (t1 :: ts1) (FEof eof) /\ suf ts1 ts).
      { pose proof (tagHead_post X (fun _ => True) p t0 ts (FEof eof) HT
          (conj (proj2 (Forall_forall _ _) (fun _ _ => I)) (fun _ => I))
          (fun r => match r with inl (_, _, q) => exists t1 ts1, Toks X q (t1 :: ts1) (FEof eof) /\ suf ts1 ts | inr _ => True end)) as W.
        eapply ok_wp in E; [|apply W]; auto.
        intros mj' nm' p' num rest -> T' _ _. exists (lastOf num t0), rest. split; auto. apply suf_app. }
      destruct T1 as (t1 & ts1 & T1 & S1).
      destruct (teq (peekTok p1) LPAREN); [|discriminate].
      npnext T1 p2 T2. npnext T2 p3 T3.
      assert (S3 : suf (tl ts1) ts) by (apply suf_tl; auto).
      eapply sub_np; [exact T3|apply suf_len in S3; lia|eapply calm_suf; eauto|].
      intros n d p' ts' K1 K2 E2. destruct d; [discriminate|]. unfold expectPeek.
      destruct (teq (peekTok p') RPAREN); simpl rbind; [|discriminate].
      npnext K1 p5 T5. discriminate.
  Qed.

  Lemma bracket_np : forall stop keep fuel acc q us, Toks X q us (FEof eof) -> (length us < N)%nat -> Calm us eof ->
    bracketLoop X pe stop keep fuel acc q <> Panic.
  Proof.
    intros stop keep. induction fuel as [|fuel IH]; intros acc q us HTq HLq HCq; simpl.
    - destruct (teq (curr q) stop); discriminate.
    - destruct (teq (curr q) stop); [discriminate|].
      apply np_bind; [eapply (proj1 HNP); eauto|]. intros [[n d] q1] E.
      pose proof (HPE (fun _ => True) q us (FEof eof) HTq HLq (conj (proj2 (Forall_forall _ _) (fun _ _ => I)) (fun _ => I))) as W.
      rewrite E in W. cbn [wp] in W. destruct W as (us' & tk & K1 & K2 & _).
      destruct d; [discriminate|]. npnext K1 q2 T2.
      assert (S2 : suf (tl us') us) by (apply suf_tl; auto).
      eapply IH; eauto; [apply suf_len in S2; lia|eapply calm_suf; eauto].
  Qed.

  Lemma commentLoop_np : forall fuel acc q us, Toks X q us (FEof eof) -> commentLoop X fuel acc q <> Panic.
  Proof.
    induction fuel as [|fuel IH]; intros acc q us HTq; simpl.
    - destruct (teq (peekTok q) COMMENT); discriminate.
    - destruct (teq (peekTok q) COMMENT); [|discriminate]. npnext HTq q1 T1. eapply IH; eauto.
  Qed.

  Lemma runNud_np : forall fuel k, tTok t0 <> COMMENT -> chooseNud p = Some k -> runNud X pe fuel k p <> Panic.
  Proof.
    intros fuel k NC HK.
    pose proof (toks_cur _ _ _ _ _ HT) as HCu.
    destruct k; cbn [runNud]; try discriminate.
    - unfold parseNamedIdentifier, currLit. rewrite HCu.
      assert (tTok t0 = IDENT).
      { unfold chooseNud, curr in HK. rewrite HCu in HK. destruct (teq (tTok t0) IDENT && teq (peekTok p) COLON); [discriminate|].
        destruct (tTok t0); try discriminate; reflexivity. }
      destruct (HC [] t0 ts eq_refl) as [H1 _]. specialize (H1 H). destruct (tLit t0); [congruence|].
      destruct (_ =? 36); discriminate.
    - unfold parseBooleanLiteral. destruct (beq _ _); [discriminate|]. destruct (beq _ _); discriminate.
    - unfold parseFloatType, parseFloatLiteral. destruct (isLiteral _ _); [|discriminate]. destruct (xParseFloat _ _); discriminate.
    - unfold parseUintType, parseUintLiteral. destruct (isLiteral _ _); [|discriminate]. destruct (parseUint _); discriminate.
    - unfold parseIntegerType, parseIntegerLiteral. destruct (isLiteral _ _); [|discriminate]. destruct (parseInt _); discriminate.
    - unfold parseMap. npnext HT p1 T1. apply np_bind; [eapply bracket_np; eauto|]. intros [[? ?] ?] _; discriminate.
    - unfold parseGroup. npnext HT p1 T1. apply np_bind; [eapply bracket_np; eauto|]. intros [[? ?] ?] _; discriminate.
    - unfold parseArray. npnext HT p1 T1. apply np_bind; [eapply bracket_np; eauto|]. intros [[? ?] ?] _; discriminate.
    - unfold parseComment. apply np_bind; [eapply commentLoop_np; eauto|]. intros [l q] _. destruct l as [|? [|? ?]]; discriminate.
    - unfold parseOptional. apply prefix_np. intros n [d|] q; discriminate.
    - unfold parsePrefixOccurrence. apply occ_np. discriminate.
    - unfold parsePrefixOccurrence. apply occ_np. discriminate.
    - unfold parseUnwrap. apply prefix_np. intros n [d|] q; discriminate.
    - apply tag_np.
    - unfold parseEnumeration. apply prefix_np. intros n [d|] q; discriminate.
  Qed.

  (** The operators; [t0] is the operator's token. *)
  Lemma runLed_np : forall k l, ledFor (tTok t0) = Some k ->
    (k = LeRegexp -> exists ps t, l = NTstrType ps t) ->
    (k = LeOccurrence -> occLower l p <> Panic) ->
    runLed X pe k l p <> Panic.
  Proof.
    intros k l HK HRe HOc. destruct k; cbn [runLed].
    - unfold parseColon. destruct (match l with NIdentifier _ => _ | _ => _ end); [|discriminate].
      npnext HT p1 T1. eapply sub_np; eauto. intros n d p' ts' K1 K2 E. destruct d; [discriminate|].
      unfold entryTrailing. destruct (teq (peekTok p') COMMENT && isSameLineTokens (pos p') (peekPos p')).
      + apply np_bind; [npnext K1 p3 T3; discriminate|]. intros [tc p3] _. discriminate.
      + discriminate.
    - unfold parseTypeChoice. apply prefix_np. intros n [d|] q; discriminate.
    - unfold parseComparatorOp. destruct (typeOf l) as [[]|]; try discriminate; (apply prefix_np; intros n [d|] q; discriminate).
    - unfold parseSizeOperator. destruct (typeOf l) as [[]|]; try discriminate; (apply prefix_np; intros n [d|] q; discriminate).
    - destruct (HRe eq_refl) as (ps & t & ->). unfold parseRegexp. cbn [typeOf].
      destruct (negb (teq (peekTok p) TEXT_LITERAL) && negb (teq (peekTok p) IDENT)); [discriminate|].
      apply prefix_np. intros n [d|] q; discriminate.
    - unfold parseBits. npnext HT p1 T1. eapply sub_np; eauto. intros n d p' ts' K1 K2 E.
      destruct d as [d|]; [|discriminate]. exfalso.
      assert (EB : tTok t0 = BITS) by (destruct (tTok t0); try discriminate; reflexivity).
      destruct (HC [] t0 ts eq_refl) as (_ & _ & _ & HB). destruct (HB EB) as [H1 H2].
      destruct ts as [|a ts2]; [simpl in H1; pose proof (tk_eof _ _ _ _ HT ltac:(discriminate)) as HE; simpl in HE; congruence|].
      simpl in H1, H2.
      destruct (HC [t0] a ts2 eq_refl) as [HA _].
      eapply (proj2 HNP p1 a ts2 eof n d p'); eauto.
      unfold peekTok. rewrite (toks_pk _ _ _ _ _ T1). destruct ts2; exact H2.
    - assert (HLit : forall b left, match left with NIntegerLiteral _ _ _ | NFloatLiteral _ _ _ => True | _ => False end ->
                parseLitBound X pe b left p <> Panic).
      { intros b left _. unfold parseLitBound. apply prefix_np. intros n [d|] q; [discriminate|].
        destruct n; try discriminate; destruct b; simpl; discriminate. }
      unfold parseBound. destruct l; try discriminate.
      + unfold parseIdentBound. apply prefix_np. intros n [d|] q; discriminate.
      + apply HLit; exact I.
      + apply HLit; exact I.
    - apply occ_np; auto.
    - discriminate.
  Qed.

  (** Where an operator leaves the parser. *)
  Lemma runLed_last : forall k l m p2, ledFor (tTok t0) = Some k -> runLed X pe k l p = Ok (m, None, p2) ->
    (over (curr p2) (peekTok p2) /\ lastOk (curr p2)) \/ In (curr p2) [COMMENT; INCLUSIVE_BOUND; EXCLUSIVE_BOUND; COMMA].
  Proof.
    intros k l m p2 HK HE. pose proof (toks_cur _ _ _ _ _ HT) as HCu.
    assert (HG : forall (g : node -> option diag -> parser -> pres),
      (forall n p', g n None p' = Ok (m, None, p2) -> curr p2 = curr p' /\ peekTok p2 = peekTok p') ->
      (forall n d p', g n (Some d) p' <> Ok (m, None, p2)) ->
      (p1 <- pnext X p;; '(n, d, p') <- peCurr pe p1;; g n d p') = Ok (m, None, p2) ->
      over (curr p2) (peekTok p2) /\ lastOk (curr p2)).
    { intros g Hg Hh E. destruct (pnext X p) as [p1| | |] eqn:E1; try discriminate. cbn [rbind] in E.
      destruct (pnext_ok _ _ _ _ _ HT E1) as [T1 _]. cbn [tl] in T1.
      destruct (peCurr pe p1) as [[[n d] p']| | |] eqn:E2; try discriminate. cbn [rbind] in E.
      destruct d as [d|]; [exfalso; eapply Hh; eauto|].
      destruct (Hg _ _ E) as [-> ->]. eapply sub_over; eauto. }
    destruct k; cbn [runLed] in HE.
    - unfold parseColon in HE. destruct (match l with NIdentifier _ => _ | _ => _ end); [|discriminate].
      destruct (pnext X p) as [p1| | |] eqn:E1; try discriminate. cbn [rbind] in HE.
      destruct (pnext_ok _ _ _ _ _ HT E1) as [T1 _]. cbn [tl] in T1.
      destruct (peCurr pe p1) as [[[n d] p']| | |] eqn:E2; try discriminate. cbn [rbind] in HE.
      destruct d as [d|]; [discriminate|]. unfold entryTrailing in HE.
      destruct (teq (peekTok p') COMMENT && isSameLineTokens (pos p') (peekPos p')) eqn:E3.
      + right. apply andb_true_iff in E3 as [E3 _]. apply teq_true in E3.
        destruct (pnext X p') as [p3| | |] eqn:E4; try discriminate. cbn [rbind] in HE. inversion HE; subst.
        unfold pnext in E4. destruct (scan X (lx p')) as [[t l']| | |]; try discriminate. cbn [rbind] in E4. inversion E4; subst.
        unfold curr. simpl. left. symmetry. exact E3.
      + cbn [rbind] in HE. inversion HE; subst. left. eapply sub_over; eauto.
    - left. unfold parseTypeChoice in HE. eapply HG; [| |exact HE]; cbn beta.
      + intros n q E. inversion E; auto.
      + intros n d q; discriminate.
    - left. unfold parseComparatorOp in HE. destruct (typeOf l) as [[]|]; try discriminate;
        (eapply HG; [| |exact HE]; cbn beta; [intros n q E; inversion E; auto|intros n d q; discriminate]).
    - left. unfold parseSizeOperator in HE. destruct (typeOf l) as [[]|]; try discriminate;
        (eapply HG; [| |exact HE]; cbn beta; [intros n q E; inversion E; auto|intros n d q; discriminate]).
    - left. unfold parseRegexp in HE. destruct (typeOf l) as [[]|]; try discriminate.
      destruct (negb (teq (peekTok p) TEXT_LITERAL) && negb (teq (peekTok p) IDENT)); [discriminate|].
      eapply HG; [| |exact HE]; cbn beta; [intros n q E; inversion E; auto|intros n d q; discriminate].
    - left. unfold parseBits in HE. eapply HG; [| |exact HE]; cbn beta; [intros n q E; inversion E; auto|].
      intros n d q. destruct (wrapBadNode n); discriminate.
    - unfold parseBound in HE.
      assert (HLit : forall b left, parseLitBound X pe b left p = Ok (m, None, p2) -> over (curr p2) (peekTok p2) /\ lastOk (curr p2)).
      { intros b left E. unfold parseLitBound in E. eapply HG; [| |exact E]; cbn beta.
        - intros n q E'. destruct n; try (inversion E'; auto; fail); destruct b; simpl in E'; inversion E'; auto.
        - intros n d q; discriminate. }
      destruct l; try (right; replace p2 with p by congruence; unfold curr; rewrite HCu; clear -HK; destruct (tTok t0); try discriminate; simpl; tauto).
      + left. unfold parseIdentBound in HE. eapply HG; [| |exact HE]; cbn beta; [intros n q E; inversion E; auto|intros n d q; discriminate].
      + left. eapply HLit; eauto.
      + left. eapply HLit; eauto.
    - left. unfold parseOccurrence in HE. destruct (occLower l p) as [[lo|d]| | |]; try discriminate. cbn [rbind] in HE.
      destruct (occUpper X p) as [[[up p1]|[d p1]]| | |] eqn:E; try discriminate. cbn [rbind] in HE.
      assert (T1 : Toks X p1 ts (FEof eof)).
      { pose proof (occUpper_post X N (fun _ => True) p t0 ts (FEof eof) HT HL
          (conj (proj2 (Forall_forall _ _) (fun _ _ => I)) (fun _ => I))
          (fun r => match r with inl (_, q) => Toks X q ts (FEof eof) | inr _ => True end)) as W.
        eapply ok_wp in E; [|apply W]; auto. }
      destruct (peCurr pe p1) as [[[n d] p']| | |] eqn:E2; try discriminate. cbn [rbind] in HE.
      destruct d; [discriminate|]. inversion HE; subst. eapply sub_over; eauto.
    - right. replace p2 with p by (unfold parseComma in HE; congruence). unfold curr; rewrite HCu; clear -HK; destruct (tTok t0); try discriminate; simpl; tauto.
  Qed.
End NoPanic.

(** * The operator loop *)

(** Trees whose [Start] and [End] return; after "tstr" they are that type. *)
Definition plainAtom (e : node) (k : token) : Prop :=
  node_start e <> Panic /\ node_end e <> Panic /\ (k = TSTR \/ k = TEXT -> exists ps t, e = NTstrType ps t).

(** The tree so far, against the last token [k] and the next one [nx]. *)
Definition Held (e : node) (k nx : token) : Prop :=
  lastOk k /\
  (atomTok k = true -> over k nx \/ plainAtom e k \/ ((k = INT \/ k = FLOAT) /\ ~ occTok nx)).

Lemma occLower_plain : forall e p, node_start e <> Panic -> node_end e <> Panic -> occLower e p <> Panic.
Proof.
  intros e p H1 H2.
  assert (HD : forall d, (s <- node_start e;; en <- node_end e;; Ok (@inr uintLit diag (d s en))) <> Panic).
  { intros d. apply np_bind; auto. intros s _. apply np_bind; auto. intros en _; discriminate. }
  destruct e; try (apply (HD (fun s en => err (MOccType (curr p)) s en))); [discriminate|].
  unfold occLower. destruct (v <? 0); discriminate.
Qed.

Lemma atom_plainAtom : forall X t nx n tk, Atom X t nx n tk -> plainAtom n (tTok t).
Proof.
  intros X t nx n tk H.
  assert (HF : forall k, floatTok k -> k <> TSTR /\ k <> TEXT).
  { intros k HF. unfold floatTok in HF. simpl in HF. intuition (subst; discriminate). }
  inversion H; subst; (split; [discriminate|split; [discriminate|]]); cbn [tTok]; intros [E|E]; try discriminate; eauto;
    try (match goal with H : floatTok _ |- _ => apply HF in H; destruct H; congruence end);
    match goal with H : _ \/ _ |- _ => destruct H; congruence end.
Qed.

Lemma nud_held : forall X t u rest eof nx n tk, Nud X (t :: u) nx n tk -> Calm ((t :: u) ++ rest) eof ->
  nx = nextOf rest eof -> tTok eof = EOF -> Held n (tTok (lastOf u t)) (tTok nx).
Proof.
  intros X t u rest eof nx n tk H HC Hnx He. split.
  { eapply (proj1 (proj2 (grammar_last X))); eauto. }
  intros HA.
  assert (HNo : forall e m tk', Entry X e nx m tk' -> u = e -> over (tTok (lastOf u t)) (tTok nx)).
  { intros e m tk' HE ->. pose proof (Entry_ne _ _ _ _ _ HE). destruct e as [|x e]; [congruence|].
    rewrite lastOf_cons. eapply Entry_over; eauto. }
  inversion H; subst; try (rewrite lastOf_snoc in HA; match goal with H : tTok _ = _ |- _ => rewrite H in HA end; discriminate);
    try (left; eapply HNo; eauto; fail).
  - right; left. eapply atom_plainAtom; eauto.
  - match goal with H : TagNum _ _ _ _ |- _ => inversion H; subst end.
    + cbn in HA. match goal with H : tTok t = HASH |- _ => rewrite H in HA end; discriminate.
    + right; right. split; [left; reflexivity|]. intros HO.
      destruct rest as [|x rest]; [cbn in HO; rewrite He in HO; destruct HO; discriminate|].
      destruct (HC [t; mkTok INT p w] x rest eq_refl) as (_ & _ & HW & _). cbn in HO, HW.
      destruct (HW HO) as [HV|[_ HV]]; [discriminate|]. apply HV. auto.
    + right; right. split; [right; reflexivity|]. intros HO.
      destruct rest as [|x rest]; [cbn in HO; rewrite He in HO; destruct HO; discriminate|].
      destruct (HC [t; mkTok FLOAT p (a ++ 46 :: b)] x rest eq_refl) as (_ & _ & HW & _). cbn in HO, HW.
      destruct (HW HO) as [HV|[_ HV]]; [discriminate|]. apply HV. auto.
  - rewrite lastOf_app in *.
    match goal with H : Entry X e _ _ _ |- _ => pose proof (Entry_ne _ _ _ _ _ H) as NE; rename H into HEn end.
    destruct e as [|x e]; [congruence|].
    match goal with H : _ \/ _ |- _ => destruct H as [[E1 E2]|[E1 E2]] end.
    + rewrite E1, lastOf_snoc, E2 in HA. discriminate.
    + rewrite E1 in *. rewrite app_nil_r, lastOf_cons in *. left. cbn in HEn. eapply Entry_over; eauto.
Qed.

Lemma posTrue : forall ts f, posOk (fun _ => True) ts f.
Proof. intros ts f. split; auto. apply Forall_forall; auto. Qed.

Lemma startTrue : forall n, startOk (fun _ => True) n.
Proof. intros n s _. exact I. Qed.

Lemma ledLoop_np : forall X N pe eof, PE X N pe -> NPE X N pe ->
  forall fuel prec l p t ts, Toks X p (t :: ts) (FEof eof) -> (length ts <= N)%nat -> Calm (t :: ts) eof ->
  real l -> 0 <= prec -> Held l (tTok t) (tTok (pk p)) ->
  ledLoop X pe fuel prec l p <> Panic.
Proof.
  intros X N pe eof HPE HNP. induction fuel as [|fuel IH]; intros prec l p t ts HT HN HC HR HPr HH;
    pose proof (toks_cur _ _ _ _ _ HT) as HCu.
  - simpl. destruct (_ && _); [|discriminate]. destruct (ledFor (peekTok p)); discriminate.
  - simpl ledLoop. destruct (negb (teq (curr p) COMMA) && (prec <? precedence (peekTok p))) eqn:EC; [|discriminate].
    apply andb_true_iff in EC as [E1 E2]. apply negb_true_iff, teq_false in E1.
    destruct (ledFor (peekTok p)) as [k|] eqn:EL; [|discriminate].
    assert (HI : infixTok (peekTok p) = true) by (apply infix_led_iff; split; [lia|congruence]).
    assert (NC : tTok t <> COMMA) by (unfold curr in E1; congruence).
    assert (NO : ~ over (tTok t) (tTok (pk p))).
    { intros [HO|HO]; [congruence|]. unfold peekTok in HI. congruence. }
    destruct (toks_pk_cons _ _ _ _ _ HT) as [ts2 ER]; [intros EE; rewrite EE in HI; discriminate|].
    remember (pk p) as op eqn:Eop. unfold peekTok in *. rewrite <- Eop in *. subst ts. simpl in HN.
    assert (HN2 : (length ts2 < N)%nat) by lia.
    assert (HC1 : Calm (op :: ts2) eof) by (eapply calm_tl; eauto).
    destruct HH as [HLast HAt].
    assert (HOp : calmAt [t] op ts2 eof) by (apply (HC [t] op ts2 eq_refl)).
    destruct HOp as (_ & HRe & HOc & _).
    npnext HT p1 T1.
    apply np_bind.
    + eapply (runLed_np X N pe HPE HNP p1 op ts2 eof); eauto.
      * intros ->. assert (E : tTok op = REGEXP) by (destruct (tTok op); try discriminate; reflexivity).
        specialize (HRe E). destruct HAt as [HO|[(_ & _ & HP)|([HI1|HI1] & _)]]; auto; try tauto.
        -- destruct HRe as [-> | ->]; reflexivity.
        -- destruct HRe; congruence.
        -- destruct HRe; congruence.
      * intros ->. assert (E : occTok (tTok op)) by (unfold occTok; destruct (tTok op); try discriminate; auto).
        destruct (HOc E) as [HS|[HA _]].
        -- specialize (HLast HS). congruence.
        -- destruct (HAt HA) as [HO|[(HP1 & HP2 & _)|(_ & HI1)]]; try tauto. apply occLower_plain; auto.
    + intros [[m d] p2] E.
      pose proof (runLed_post X N pe (fun _ => True) p1 op ts2 (FEof eof) l k HPE T1 HN2 (posTrue _ _) HR (startTrue l) EL) as W.
      rewrite E in W. cbn [wp] in W. destruct W as (ts' & tk & K1 & K2 & _ & _ & _ & _ & K7).
      destruct d as [d|]; [discriminate|].
      destruct K7 as (t1 & u & rest & E3 & -> & KR & KS & KT). inversion E3; subst t1 ts2.
      eapply (IH prec m p2 (lastOf u op) rest K1); auto.
      * rewrite app_length in *. lia.
      * eapply calm_suf; eauto.
      * pose proof (runLed_last X N pe HPE p1 op (u ++ rest) eof T1 HN2 HC1 k l m p2 EL E) as HLs.
        unfold curr, peekTok in HLs. rewrite (toks_cur _ _ _ _ _ K1) in HLs.
        destruct HLs as [[HO HLk]|HLs].
        { split; auto. }
        { generalize dependent (tTok (lastOf u op)). clear. intros k HK.
          simpl in HK. destruct HK as [<- | [<- | [<- | [<- | []]]]]; (split; [intros HS|intros HA]); auto; discriminate. }
Qed.

(** * Entries *)

Lemma skip_np : forall X fuel p ts eof, Toks X p ts (FEof eof) -> skipComments X fuel p <> Panic.
Proof.
  intros X fuel p ts eof HT. unfold skipComments. destruct (teq (curr p) COMMENT); [|discriminate].
  unfold parseComment. apply np_bind.
  - apply np_bind; [eapply commentLoop_np; eauto|]. intros [l q] _. destruct l as [|? [|? ?]]; discriminate.
  - intros [[n d] q] E. destruct (commentLoop X fuel [parseInnerComment p] p) as [[l q']| | |] eqn:EL; try discriminate.
    assert (q = q') as -> by (cbn [rbind] in E; destruct l as [|? [|? ?]]; congruence).
    assert (HQ : forall fuel acc p ts, Toks X p ts (FEof eof) -> forall l q, commentLoop X fuel acc p = Ok (l, q) -> exists us, Toks X q us (FEof eof)).
    { clear. induction fuel as [|fuel IH]; intros acc p ts HT l q E; simpl in E.
      - destruct (teq (peekTok p) COMMENT); [discriminate|]. inversion E; subst; eauto.
      - destruct (teq (peekTok p) COMMENT); [|inversion E; subst; eauto].
        destruct (pnext X p) as [p1| | |] eqn:E1; try discriminate. cbn [rbind] in E.
        destruct (pnext_ok _ _ _ _ _ HT E1) as [T1 _]. eapply IH; eauto. }
    destruct (HQ _ _ _ _ HT _ _ EL) as [us TU]. eapply np_pnext; eauto.
Qed.

Lemma prec_nonneg : forall t, 0 <= precedence t.
Proof. intros t. destruct t; cbv; discriminate. Qed.

Theorem parseEntry_np : forall X fuel,
  (forall prec p ts eof, Toks X p ts (FEof eof) -> (length ts < fuel)%nat -> Calm ts eof -> 0 <= prec ->
     parseEntry X fuel prec p <> Panic) /\ NPE X fuel (parseEntry X fuel).
Proof.
  intros X fuel.
  assert (HS : forall fuel, (forall prec p ts eof, Toks X p ts (FEof eof) -> (length ts < fuel)%nat -> Calm ts eof -> 0 <= prec ->
     parseEntry X fuel prec p <> Panic) -> NPE X fuel (parseEntry X fuel)).
  { clear fuel. intros fuel H. split.
    - intros p ts eof H1 H2 H3. apply (H _ p ts eof); auto. apply prec_nonneg.
    - intros p t ts eof n d p' HT HI HL HP. unfold peCurr. destruct fuel as [|fuel]; [discriminate|].
      pose proof (toks_cur _ _ _ _ _ HT) as HCu.
      simpl parseEntry. unfold skipComments, curr. rewrite HCu, HI.
      replace (teq IDENT COMMENT) with false by reflexivity. cbn [rbind].
      unfold chooseNud, curr. rewrite HCu, HI.
      assert (EC : teq (peekTok p) COLON = false).
      { apply teq_false. intros E. rewrite E in HP. destruct HP; discriminate. }
      rewrite EC, andb_false_r. cbn [nudFor runNud]. unfold parseNamedIdentifier, currLit, pos. rewrite HCu.
      destruct (tLit t) as [|c w] eqn:EL; [congruence|]. cbn [rbind].
      set (q := if c =? 36 then p else addTask p (TExists (c :: w) (tPos t))).
      assert (EQ : forall m, rbind (if c =? 36 then Ok (m, None, p) else Ok (m, None, addTask p (TExists (c :: w) (tPos t))))
                (fun pat => let '(e, d, p2) := pat in match d with Some _ => Ok (e, d, p2) | None => ledLoop X (parseEntry X fuel) fuel (precedence IDENT) e p2 end)
              = ledLoop X (parseEntry X fuel) fuel (precedence IDENT) m q).
      { intros m. unfold q. destruct (c =? 36); reflexivity. }
      assert (TQ : Toks X q (t :: ts) (FEof eof)) by (unfold q; destruct (c =? 36); auto; apply toks_addTask; auto).
      assert (PQ : peekTok q = peekTok p) by (unfold q; destruct (c =? 36); reflexivity).
      assert (CQ : curr q = IDENT) by (unfold curr; rewrite (toks_cur _ _ _ _ _ TQ); exact HI).
      assert (HLo : forall m, ledLoop X (parseEntry X fuel) fuel (precedence IDENT) m q <> Ok (n, Some d, p')).
      { intros m. destruct HP as [HP|HP].
        - destruct fuel as [|fuel]; simpl; rewrite CQ, PQ, HP; simpl; [discriminate|].
          destruct (pnext X q) as [q1| | |] eqn:EN; try discriminate. cbn [rbind parseComma].
          assert (EQ1 : curr q1 = COMMA).
          { destruct (pnext_ok _ _ _ _ _ TQ EN) as [T1 _]. unfold curr. rewrite (tk_cur _ _ _ _ T1).
            unfold peekTok in *. rewrite (toks_pk _ _ _ _ _ TQ) in PQ. rewrite HP in PQ. simpl in *. destruct ts; exact PQ. }
          rewrite ledLoop_over; [discriminate|cbv; discriminate|]. left. exact EQ1.
        - rewrite ledLoop_over; [discriminate|cbv; discriminate|]. right. congruence. }
      specialize (HLo (NIdentifier (mkIdent (tPos t) (c :: w)))).
      intros E. apply HLo. rewrite <- EQ. rewrite <- E. destruct (c =? 36); reflexivity. }
  assert (HA : forall prec p ts eof, Toks X p ts (FEof eof) -> (length ts < fuel)%nat -> Calm ts eof -> 0 <= prec ->
     parseEntry X fuel prec p <> Panic).
  { induction fuel as [|fuel IH]; intros prec p ts eof HT HF HC HPr; [discriminate|].
    pose proof (HS fuel IH) as HNP. pose proof (parseEntry_PE X fuel) as HPE.
    simpl parseEntry. apply np_bind; [eapply skip_np; eauto|]. intros p1 E1.
    pose proof (skip_post X (FEof eof) fuel p ts HT ltac:(lia)) as W. rewrite E1 in W. cbn [wp] in W.
    destruct W as (cms & ts1 & -> & HCm & T1 & S1 & NC).
    assert (HC1 : Calm ts1 eof) by (eapply calm_suf; [apply suf_app|eauto]).
    assert (HL1 : (length ts1 < S fuel)%nat) by (rewrite app_length in HF; lia).
    destruct (chooseNud p1) as [k|] eqn:EK; [|discriminate].
    assert (NE : curr p1 <> EOF) by (intros E; unfold chooseNud in EK; rewrite E in EK; discriminate).
    destruct (toks_cons _ _ _ _ T1 NE) as [ts2 E2]. remember (cur p1) as t0. subst ts1. simpl in HL1.
    assert (NC0 : tTok t0 <> COMMENT) by (unfold curr in NC; congruence).
    assert (HL2 : (length ts2 < fuel)%nat) by lia.
    apply np_bind; [eapply (runNud_np X fuel (parseEntry X fuel) HPE HNP p1 t0 ts2 eof); eauto|].
    intros [[n d] p2] E. destruct d as [d|]; [discriminate|].
    pose proof (runNud_post X fuel fuel (parseEntry X fuel) (fun _ => True) p1 t0 ts2 (FEof eof) k HPE T1 HL2 HL2 (posTrue _ _) NC0 EK) as W.
    rewrite E in W. cbn [wp] in W. destruct W as (ts' & tk & K1 & K2 & _ & _ & _ & _ & t & u & rest & E3 & -> & HNud).
    inversion E3; subst t ts2.
    eapply (ledLoop_np X fuel (parseEntry X fuel) eof HPE HNP fuel prec n p2 (lastOf u t0) rest K1); auto.
    - rewrite app_length in HL2. lia.
    - eapply calm_suf; eauto.
    - eapply Nud_real; eauto.
    - assert (EP : pk p2 = nextOf rest eof) by (rewrite (toks_pk _ _ _ _ _ K1); destruct rest; reflexivity).
      eapply nud_held; eauto. apply (tk_eof _ _ _ _ HT). discriminate. }
  auto.
Qed.

(** * Rules *)

(** Operators that build trees without a first token. *)
Definition startTok (t : tokInfo) : Prop :=
  ~ In (tTok t) [LT; LE; GT; GE; EQ; NE; INCLUSIVE_BOUND; EXCLUSIVE_BOUND].

Lemma grammar_starts : forall X,
  (forall u nx n tk, Entry X u nx n tk -> Forall startTok u -> node_start n <> Panic) /\
  (forall u nx n tk, Nud X u nx n tk -> Forall startTok u -> node_start n <> Panic) /\
  (forall lst l u nx n tk, Tail X lst l u nx n tk -> Forall startTok u -> node_start l <> Panic -> node_start n <> Panic) /\
  (forall es c ns tk, Entries X es c ns tk -> True).
Proof.
  intros X. apply grammar_ind; auto; try (intros; discriminate).
  - intros cms t u tl nx n tk m tk' HC HN IN HT IT HF. apply Forall_app in HF as [_ HF]. apply Forall_app in HF as [H1 H2]. auto.
  - intros t nx n tk HA HF. inversion HA; subst; discriminate.
  - intros lst l op t e nx v m tk tk' H1 HE IE HI HF HL. inversion HF as [|? ? Hop HF']; subst.
    assert (HB : tTok op = INCLUSIVE_BOUND \/ tTok op = EXCLUSIVE_BOUND -> False).
    { intros E. apply Hop. simpl. destruct E as [E|E]; rewrite E; tauto. }
    inversion HI; subst; try (exfalso; apply HB; assumption); simpl; auto; try discriminate.
    + exfalso. apply Hop. simpl in *. tauto.
  - intros lst l op t e c tl nx i v m tk tk' H1 H2 HK HE IE HTr HT IT HF HL. apply IT; [|discriminate].
    inversion HF as [|? ? _ HF1]; subst. inversion HF1 as [|? ? _ HF2]; subst.
    apply Forall_app in HF2 as [_ HF2]. now inversion HF2.
  - intros lst l op tl nx m tk H1 H2 HB HT IT HF HL. inversion HF as [|? ? Hop _]; subst. exfalso. apply Hop.
    simpl. destruct H2 as [-> | ->]; tauto.
Qed.

(** Nothing in [ts] is defined twice or is in [e] already, or every first
    definition has a position. *)
Definition FreshOrStart (e : environment) (ts : list tokInfo) : Prop :=
  (NoDup (defNames ts) /\ forall w, In w (defNames ts) -> ~ In w (names e)) \/
  (Forall startTok ts /\ Forall (fun b => node_start (snd b) <> Panic) e).

Lemma defNames_two : forall t x r, defNames (t :: x :: r) =
  if teq (tTok t) IDENT && teq (tTok x) ASSIGN then tLit t :: defNames (x :: r) else defNames (x :: r).
Proof. reflexivity. Qed.

Lemma defNames_suf : forall a b, suf a b -> exists l, defNames b = l ++ defNames a.
Proof.
  intros a b [c ->]. induction c as [|t c [l IH]]; simpl app; [now exists []|].
  destruct (c ++ a) as [|x r] eqn:E.
  - destruct c; [|discriminate]. simpl in E. subst a. now exists [].
  - rewrite defNames_two, IH.
    destruct (teq (tTok t) IDENT && teq (tTok x) ASSIGN); [now exists (tLit t :: l)|now exists l].
Qed.

Lemma fresh_suf : forall e a b, suf a b -> FreshOrStart e b -> FreshOrStart e a.
Proof.
  intros e a b HS [[H1 H2]|[H1 H2]].
  - left. destruct (defNames_suf a b HS) as [l E]. rewrite E in *. split.
    + clear -H1. induction l; auto. simpl in H1. inversion H1; auto.
    + intros w Hw. apply H2. apply in_or_app; auto.
  - right. destruct HS as [c ->]. apply Forall_app in H1. tauto.
Qed.

Lemma assoc_In : forall e w n, assoc w e = Some n -> In (w, n) e.
Proof.
  induction e as [|[k v] e IH]; simpl; intros w n H; [discriminate|].
  destruct (beq k w) eqn:E; [|auto]. apply beq_true in E. left. congruence.
Qed.

(** No panic, and the result satisfies [Q]. *)
Definition np {A} (r : res A) (Q : A -> Prop) : Prop :=
  match r with Ok a => Q a | Panic => False | _ => True end.

Lemma np_intro : forall A (e : res A) (Q : A -> Prop), e <> Panic -> wp e Q -> np e Q.
Proof. intros A [] Q H W; simpl in *; auto. Qed.
Lemma np_then : forall A B (e : res A) (k : A -> res B) Q, np e (fun a => np (k a) Q) -> np (rbind e k) Q.
Proof. intros A B [] k Q H; simpl in *; auto. Qed.
Lemma np_mono : forall A (e : res A) (Q R : A -> Prop), np e Q -> (forall a, Q a -> R a) -> np e R.
Proof. intros A [] Q R H HQ; simpl in *; auto. Qed.
Lemma np_next : forall X p ts eof (Q : parser -> Prop), Toks X p ts (FEof eof) ->
  (forall p', Toks X p' (tl ts) (FEof eof) -> same p' p -> Q p') -> np (pnext X p) Q.
Proof. intros X p ts eof Q HT HQ. destruct (pnext_eof _ _ _ _ HT) as (p' & -> & H1 & H2). simpl. auto. Qed.

Lemma trailing_np : forall X p t ts eof, Toks X p (t :: ts) (FEof eof) ->
  np (ruleTrailing X p) (fun r => let '(_, p') := r in exists ts', Toks X p' ts' (FEof eof) /\ suf ts' (t :: ts) /\ env p' = env p).
Proof.
  intros X p t ts eof HT. unfold ruleTrailing. destruct (_ && _).
  - apply np_then. eapply np_next; eauto. intros p1 T1 S1. cbn [tl] in T1. apply np_then. eapply np_next; eauto.
    intros p2 T2 S2. unsame. cbn [np]. exists (tl ts). split; auto. split; [apply suf_tl, suf_cons, suf_refl|congruence].
  - cbn [np]. exists (t :: ts). split; auto. split; auto. apply suf_refl.
Qed.

Lemma parseRule_np : forall X fuel p ts eof, Toks X p ts (FEof eof) -> curr p <> EOF -> (length ts <= fuel)%nat ->
  Calm ts eof -> FreshOrStart (env p) ts ->
  np (parseRule X fuel p) (fun r => let '(_, _, p') := r in
    exists ts', Toks X p' ts' (FEof eof) /\ suf ts' ts /\ FreshOrStart (env p') (tl ts')).
Proof.
  intros X fuel p ts eof HT NE HF HC HFr.
  destruct (toks_cons _ _ _ _ HT NE) as [ts1 E1].
  remember (cur p) as t eqn:Et. subst ts. pose proof (toks_cur _ _ _ _ _ HT) as HCu. simpl in HF.
  assert (HSame : forall (r : pres), (exists n d p' ts', r = Ok (n, d, p') /\ Toks X p' ts' (FEof eof) /\ suf ts' (t :: ts1) /\ env p' = env p) ->
    np r (fun r => let '(_, _, p') := r in
      exists ts', Toks X p' ts' (FEof eof) /\ suf ts' (t :: ts1) /\ FreshOrStart (env p') (tl ts'))).
  { intros r (n & d & p' & ts' & -> & H1 & H2 & H3). cbn [np]. exists ts'. split; auto. split; auto.
    rewrite H3. eapply fresh_suf; [apply suf_tl; eauto|auto]. }
  unfold parseRule. destruct (curr p) eqn:EC; try (apply HSame; do 4 eexists; split; [reflexivity|]; split; [exact HT|]; split; auto; apply suf_refl).
  - (* a comment *)
    unfold parseComment.
    apply np_then, np_intro; [eapply commentLoop_np; eauto|].
    eapply wp_mono; [eapply commentLoop_post; eauto; lia|].
    intros [l q] (cms & rest & -> & _ & K1 & K2 & _ & _). apply HSame. unsame.
    destruct l as [|? [|? ?]]; do 4 eexists; (split; [reflexivity|]; split; [exact K1|]; split; [apply suf_last|auto]).
  - apply np_then. eapply np_next; [exact HT|]. intros p1 T1 S1. cbn [tl] in T1. unsame.
    assert (HE : forall prec (k : node * option diag * parser -> pres) Q,
        (forall q, 0 <= prec q) -> (forall q, prec q = 0 \/ prec q = precedence (curr q)) ->
        (forall n d p3 ts', Toks X p3 ts' (FEof eof) -> suf ts' (t :: ts1) -> env p3 = env p -> np (k (n, Some d, p3)) Q) ->
        (forall n p3 t' ts' u nx tk, Toks X p3 (t' :: ts') (FEof eof) -> suf (t' :: ts') (tl ts1) -> env p3 = env p ->
           suf u (tl ts1) \/ (exists v, tl ts1 = u ++ v) -> Entry X u nx n tk -> np (k (n, None, p3)) Q) ->
        np (p2 <- pnext X p1;; r <- parseEntry X fuel (prec p2) p2;; k r) Q).
    { intros prec k Q HP0 HPr HK1 HK2. apply np_then. eapply np_next; [exact T1|]. intros p2 T2 S2. unsame.
      assert (HC2 : Calm (tl ts1) eof) by (eapply calm_suf; [|eauto]; apply suf_tl, suf_cons, suf_refl).
      assert (HL3 : (length (tl ts1) < fuel)%nat) by (destruct ts1; simpl in *; lia).
      apply np_then, np_intro; [eapply (proj1 (parseEntry_np X fuel)); eauto|].
      eapply wp_mono; [apply (parseEntry_post X (fun _ => True) (FEof eof) fuel (prec p2) p2 (tl ts1) T2 HL3 (posTrue _ _) (HPr p2))|].
      intros [[n d] p3] (ts' & tk & K1 & K2 & K3 & _ & _ & _ & K7). destruct d as [d|].
      - eapply HK1; eauto; [|congruence]. eapply suf_trans; eauto. apply suf_tl, suf_cons, suf_refl.
      - destruct K7 as (t' & u & rest & E & -> & HEn). eapply HK2; eauto. congruence. }
    assert (HSuf1 : suf (tl ts1) (t :: ts1)) by (apply suf_tl, suf_cons, suf_refl).
    destruct (curr p1) eqn:EC1; try (apply HSame; do 4 eexists; split; [reflexivity|]; split; [exact T1|]; split; [apply suf_cons, suf_refl|congruence]).
    + (* = *)
      apply (HE (fun p2 => precedence (curr p2))); auto.
      { intros q. apply prec_nonneg. }
      { intros n d p3 ts' K1 K2 K3. apply HSame. do 4 eexists. split; [reflexivity|]. eauto. }
      intros n p3 t' ts' u nx tk K1 K2 K3 KU KE. apply np_then. eapply np_mono; [eapply trailing_np; eauto|].
      intros [tc p4] (ts4 & J1 & J2 & J3). apply np_then.
      assert (HTwo : exists a ts2, ts1 = a :: ts2 /\ tTok a = ASSIGN).
      { assert (NE1 : curr p1 <> EOF) by congruence. destruct (toks_cons _ _ _ _ T1 NE1) as [ts2 E2].
        exists (cur p1), ts2. split; auto. }
      destruct HTwo as (a & ts2 & -> & HA). simpl tl in *.
      assert (HId : tTok t = IDENT) by (unfold curr in EC; congruence).
      assert (ED : defNames (t :: a :: ts2) = tLit t :: defNames (a :: ts2)) by (rewrite defNames_two, HId, HA, !teq_refl; reflexivity).
      assert (ELit : currLit p = tLit t) by (unfold currLit; now rewrite HCu).
      assert (EE : env p4 = env p) by congruence.
      unfold registerRule. cbn [iName iPos]. rewrite ELit.
      assert (HSf : suf (tl ts4) (a :: ts2)) by (apply suf_tl, suf_cons; eapply suf_trans; eauto).
      assert (HS4 : suf ts4 (t :: a :: ts2)) by (do 2 apply suf_cons; eapply suf_trans; eauto).
      destruct (add_spec (env p4) (tLit t) n) as [[HI E]|[HI E]]; rewrite E.
      * destruct HFr as [[_ H2']|[H1' H2']].
        { exfalso. apply (H2' (tLit t)); [rewrite ED; now left|]. rewrite <- EE. exact HI. }
        cbn [env setEnv]. apply np_then. apply np_intro.
        { unfold get. destruct (assoc (tLit t) (env p4)) as [v|] eqn:EAs.
          - apply assoc_In in EAs. rewrite Forall_forall in H2'. rewrite EE in EAs. apply (H2' _ EAs).
          - exfalso. apply exists_names in HI. unfold exists_ in HI. rewrite EAs in HI. discriminate. }
        apply start_ok. intros s _. cbn [np]. exists ts4. split; [apply toks_addDiag, toks_setEnv; auto|]. split; auto.
        cbn [env setEnv addDiag]. rewrite EE. apply (fresh_suf (env p) _ (t :: a :: ts2)); [apply suf_cons; auto|right; auto].
      * cbn [np]. exists ts4. split; [apply toks_setEnv; auto|]. split; auto.
        cbn [env setEnv]. rewrite EE. destruct HFr as [[H1' H2']|[H1' H2']].
        -- left. rewrite ED in H1', H2'. apply NoDup_cons_iff in H1' as [HN HD].
           { destruct (defNames_suf _ _ HSf) as [l' EL]. rewrite EL in HD, HN, H2'. split.
             - clear -HD. induction l'; auto. simpl in HD. inversion HD; auto.
             - intros w Hw. unfold names. rewrite map_app, in_app_iff. simpl. intros [HI2|[HI2|[]]].
               + apply (H2' w); auto. right. apply in_or_app; auto.
               + subst w. apply HN. apply in_or_app; auto. }
        -- right. split.
           { destruct HSf as [c Ec]. inversion H1' as [|? ? _ HF2]; subst. rewrite Ec in HF2. apply Forall_app in HF2. tauto. }
           { apply Forall_app. split; auto. constructor; auto. simpl. eapply (proj1 (grammar_starts X)); eauto.
             inversion H1' as [|? ? _ HF2]; subst. inversion HF2 as [|? ? _ HF3]; subst.
             destruct KU as [[c ->]|[v ->]]; apply Forall_app in HF3; tauto. }
    + apply (HE (fun p2 => LOWEST)); auto.
      { intros q. cbv; discriminate. }
      { intros n d p3 ts' K1 K2 K3. apply HSame. do 4 eexists. split; [reflexivity|]. eauto. }
      intros n p3 t' ts' u nx tk K1 K2 K3 KU KE. apply np_then. eapply np_mono; [eapply trailing_np; eauto|].
      intros [tc p4] (ts4 & J1 & J2 & J3). apply HSame. do 4 eexists. split; [reflexivity|]. split; [exact J1|]. split; [|congruence].
      eapply suf_trans; [exact J2|]. eapply suf_trans; [exact K2|]. exact HSuf1.
    + apply (HE (fun p2 => LOWEST)); auto.
      { intros q. cbv; discriminate. }
      { intros n d p3 ts' K1 K2 K3. apply HSame. do 4 eexists. split; [reflexivity|]. eauto. }
      intros n p3 t' ts' u nx tk K1 K2 K3 KU KE. apply np_then. eapply np_mono; [eapply trailing_np; eauto|].
      intros [tc p4] (ts4 & J1 & J2 & J3). apply HSame. do 4 eexists. split; [reflexivity|]. split; [exact J1|]. split; [|congruence].
      eapply suf_trans; [exact J2|]. eapply suf_trans; [exact K2|]. exact HSuf1.
Qed.

Lemma fileLoop_np : forall X eof rfuel fuel acc p ts, Toks X p ts (FEof eof) -> (length ts <= rfuel)%nat ->
  Calm ts eof -> FreshOrStart (env p) ts -> fileLoop X rfuel fuel acc p <> Panic.
Proof.
  intros X eof rfuel. induction fuel as [|fuel IH]; intros acc p ts HT HL HC HFr; simpl.
  - destruct (teq (curr p) EOF); discriminate.
  - destruct (teq (curr p) EOF) eqn:EE; [discriminate|]. apply teq_false in EE.
    pose proof (parseRule_np X rfuel p ts eof HT EE HL HC HFr) as HR.
    destruct (parseRule X rfuel p) as [[[n d] p1]| | |]; try discriminate; [|destruct HR].
    cbn [np] in HR. destruct HR as (ts' & K1 & K2 & K3). cbn [rbind].
    assert (K1' : Toks X (handle p1 d) ts' (FEof eof)) by (apply toks_handle; auto).
    apply np_bind; [eapply np_pnext; eauto|]. intros p2 E2. destruct (pnext_ok _ _ _ _ _ K1' E2) as [T2 S2]. unsame.
    assert (HS : suf (tl ts') ts) by (apply suf_tl; auto).
    eapply IH; eauto.
    + apply suf_len in HS. lia.
    + eapply calm_suf; eauto.
    + assert (EE2 : env p2 = env p1) by (destruct d; simpl in *; congruence). now rewrite EE2.
Qed.

Theorem source_np : forall X s e fuel ts eof, Str X (newLexer s) ts (FEof eof) -> (length ts <= fuel)%nat ->
  Calm ts eof -> FreshOrStart e ts -> parseSource X fuel s e <> Panic.
Proof.
  intros X s e fuel ts eof HS HL HC HFr. unfold parseSource.
  destruct (newParser_toks X (newLexer s) e ts _ HS) as [(E & E' & _)|(p & l1 & t1 & t2 & E & HT & E1 & E2 & E3 & E4 & E5)];
    [discriminate|].
  rewrite E. cbn [rbind]. unfold parseFile. destruct (errors (lx p)); [|discriminate].
  apply np_bind; [|intros [rules p1] _; discriminate].
  eapply fileLoop_np; eauto. rewrite E2. exact HFr.
Qed.
