(** Texts that write a document. *)
From Coq Require Import String.
From Verif Require Import Base Utf8 Token Ext Strconv StrconvSpec StrconvProofs LexSpec LexSpec2 Lexer LexerProofs LexOne LexSeq LexHang LexWords
  Ast Env Diag Parser ParseSpec ParseStream ParseTokens Doc DocProofs.
Open Scope string_scope.
Open Scope list_scope.
Open Scope Z_scope.

Lemma newlines_app : forall a b, newlines (a ++ b) = newlines a + newlines b.
Proof. induction a; intros; simpl; auto. rewrite IHa. lia. Qed.

Lemma newlines_pos : forall a, 0 <= newlines a.
Proof. induction a; simpl; [lia|]. destruct (a =? 10); lia. Qed.

Lemma newlines_none : forall a, ~ In 10 a -> newlines a = 0.
Proof.
  induction a; intros H; simpl; auto. replace (a =? 10) with false by (symmetry; apply Z.eqb_neq; intros ->; apply H; left; auto).
  rewrite IHa; auto. intros K. apply H. right. auto.
Qed.

Lemma newlines_some : forall a, In 10 a -> 0 < newlines a.
Proof.
  induction a as [|b a IH]; intros H; simpl; [contradiction|]. pose proof (newlines_pos a). destruct H as [->|H]; [rewrite Z.eqb_refl; lia|].
  apply IH in H. destruct (b =? 10); lia.
Qed.

Lemma lexeme_noNl : forall tk text lit, lexeme tk text lit -> ~ In 10 text.
Proof.
  assert (HF : forall (P : Z -> Prop) w, Forall P w -> ~ P 10 -> ~ In 10 w).
  { intros P w H N K. rewrite Forall_forall in H. auto. }
  assert (HC : forall c w, c <> 10 -> ~ In 10 w -> ~ In 10 (c :: w)) by (intros c w H1 H2 [->|K]; auto).
  intros tk text lit H. inversion H; subst.
  - apply HC; [unfold identStart in *; lia|]. eapply HF; eauto. unfold identChar, identStart. lia.
  - apply HC; [lia|]. eapply HF; eauto. unfold letter. lia.
  - eapply HF; eauto. unfold digit. lia.
  - apply HC; [lia|]. apply HC; [lia|]. eapply HF; eauto. unfold hexDigit, digit. lia.
  - apply HC; [lia|]. apply HC; [lia|]. eapply HF; eauto. unfold binDigit. lia.
  - apply HC; [lia|]. apply HC; [lia|]. eapply HF; eauto. unfold octDigit. lia.
  - intros K. apply in_app_or in K as [K|K]; [revert K; eapply HF; eauto; unfold digit; lia|].
    destruct K as [K|K]; [lia|]. revert K. eapply HF; eauto. unfold digit. lia.
  - match goal with K : In _ punctTable |- _ => unfold punctTable in K; simpl in K;
      repeat (destruct K as [K|K]; [inversion K; subst; simpl; intuition lia|]); contradiction end.
  - apply HC; [lia|]. intros K. apply in_app_or in K as [K|[K|[]]]; [auto|lia].
  - apply HC; [lia|]. auto.
Qed.

(** The tokens of a spaced text that fits the lexemes. *)
Lemma expected_laid : forall items xs s k p, spaced (skipn k s) items -> Forall2 fits items xs ->
  pLine (tPos p) = 1 + newlines (firstn k s) ->
  exists ts, expected s k items = ts ++ [mkTok EOF (posAt s (length s)) []] /\ Laid p ts xs.
Proof.
  induction items as [|[[[g tk] text] lit] items IH]; intros xs s k p HS HF HP.
  - inversion HF; subst. exists []. split; auto. constructor.
  - inversion HF as [|? x ? xs' HX HF']; subst. inversion HS as [|? ? ? ? rest ? H3 H4 H6 H7 H0]; subst.
    symmetry in H0. destruct (firstn_add s k _ _ H0) as [F1 F2]. destruct (firstn_add s _ _ _ F2) as [F3 F4].
    destruct HX as (X1 & X2 & X3 & X4). subst tk text lit.
    set (t := mkTok (xTok x) (posAt s (k + length g)) (xLit x)).
    assert (HPt : pLine (tPos t) = 1 + newlines (firstn k s) + newlines g).
    { unfold t, posAt. cbn [tPos pLine]. rewrite F1, newlines_app. lia. }
    pose proof (newlines_none _ (lexeme_noNl _ _ _ H4)) as HN.
    destruct (IH xs' s (k + length g + length (xText x))%nat t) as (ts & E & HL).
    + rewrite F4. exact H7.
    + exact HF'.
    + rewrite HPt, F3, F1, !newlines_app. lia.
    + exists (t :: ts). split.
      * simpl expected. rewrite E. reflexivity.
      * constructor; auto. unfold placed. destruct (xAt x); auto.
        -- apply newlines_some in X4. lia.
        -- apply newlines_none in X4. lia.
Qed.

Lemma str_scanLoop : forall X l ts f, Str X l ts f -> forall n us, scanLoop X n l = Ok us ->
  exists eof, f = FEof eof /\ us = ts ++ [eof].
Proof.
  intros X l ts f H. induction H; intros n us HS; (destruct n; [discriminate|]); cbn [scanLoop] in HS.
  - rewrite H in HS. cbn [rbind] in HS. replace (teq (tTok t) EOF) with false in HS.
    2:{ symmetry. unfold teq. destruct (token_eq_dec (tTok t) EOF); auto; contradiction. }
    destruct (scanLoop X n l') as [us'| | |] eqn:E; try discriminate. cbn [rbind] in HS. inversion HS; subst.
    destruct (IHStr _ _ E) as (eof & -> & ->). exists eof. auto.
  - rewrite H in HS. discriminate.
  - destruct (H0 1%nat) as (l' & K). cbn [scans] in K. destruct (scan X l) as [[t1 l1]| | |]; try discriminate.
    cbn [rbind repeat] in K. inversion K; subst. cbn [rbind] in HS. replace (teq (tTok t) EOF) with true in HS.
    2:{ rewrite H. reflexivity. }
    inversion HS; subst. exists t. auto.
Qed.

(** The tokens of a text that writes lexemes. *)
Theorem writes_tokens : forall X s xs, writes s xs ->
  exists ts eof, Str X (newLexer s) ts (FEof eof) /\ Laid (mkTok EOF (posAt s 0) []) ts xs.
Proof.
  intros X s xs (items & HS & HF). pose proof (spaced_good _ _ HS) as D.
  destruct (expected_laid items xs s 0 (mkTok EOF (posAt s 0) [])) as (ts & E & HL); auto.
  destruct (new_str X s D) as (ts' & f & k' & HStr & _).
  pose proof (spaced_scan X s items (S (length items)) (newLexer s) 0 (newLexer_st s D) HS (Nat.lt_succ_diag_r _)) as K.
  destruct (str_scanLoop _ _ _ _ HStr _ _ K) as (eof & -> & E2). rewrite E in E2. apply app_inj_tail in E2 as [-> _].
  exists ts', eof. auto.
Qed.

(** ** The printer writes the lexemes *)

Definition okLx (x : lexi) : Prop := lexeme (xTok x) (xText x) (xLit x).

(** [Same] does not stand after a comment. *)
Fixpoint sameOk (afterComment : bool) (xs : list lexi) : Prop :=
  match xs with
  | [] => True
  | x :: r => (afterComment = true -> xAt x <> Same) /\ sameOk (teq (xTok x) COMMENT) r
  end.

Theorem print_writes : forall xs b, Forall okLx xs -> sameOk b xs -> writes (printFrom b xs) xs.
Proof.
  induction xs as [|x xs IH]; intros b HO HS.
  - exists []. split; [|constructor]. simpl. apply sp_nil. constructor; [unfold blank; auto|constructor].
  - inversion HO as [|? ? H1 H2]; subst. destruct HS as [HS1 HS2]. destruct (IH _ H2 HS2) as (items & K1 & K2).
    set (g := if b then [10] else match xAt x with Fresh => [10] | _ => [32] end).
    exists ((g, xTok x, xText x, xLit x) :: items). split.
    + simpl. change (match b with true => [10] | false => match xAt x with Fresh => [10] | _ => [32] end end) with g.
      constructor; auto.
      * unfold g. destruct b; [|destruct (xAt x)]; (constructor; [unfold blank; auto|constructor]).
      * right. destruct xs as [|y xs]; simpl.
        { exists 10, []. split; auto. split; [unfold blank; auto|auto]. }
        { unfold teq. destruct (token_eq_dec (xTok x) COMMENT) as [EC|NC].
          - exists 10. eexists. split; [reflexivity|]. split; [unfold blank; auto|auto].
          - destruct (xAt y); eexists; eexists; (split; [reflexivity|]); (split; [unfold blank; auto|congruence]). }
    + constructor; auto. simpl. repeat split; auto. unfold g. destruct b.
      * specialize (HS1 eq_refl). destruct (xAt x); simpl; auto.
      * destruct (xAt x); simpl; auto. intuition discriminate.
Qed.

(** ** The lexemes of a document *)

Definition usedToks : list token := typeToks ++
  [TRUE; FALSE; COMMA; HASH; LPAREN; RPAREN; LBRACK; RBRACK; LBRACE; RBRACE; OPTIONAL; UNWRAP; AMPERSAND; ZERO_OR_MORE; ONE_OR_MORE;
   TYPE_CHOICE; GROUP_CHOICE; LT; LE; GT; GE; EQ; NE; SIZE; REGEXP; BITS; INCLUSIVE_BOUND; EXCLUSIVE_BOUND; COLON; ARROW_MAP;
   ASSIGN; TYPE_CHOICE_ASSIGN; GROUP_CHOICE_ASSIGN].

Ltac findIn := solve [repeat (first [left; reflexivity | right])].

Lemma used_lexeme : forall t, In t usedToks -> okLx (lx1 t).
Proof.
  assert (HW : forall c w k, identStart c -> forallb (fun x => ((97 <=? x) && (x <=? 122)) || ((48 <=? x) && (x <=? 57))) w = true ->
    In (c :: w, k) keywordTable -> lexeme k (c :: w) (c :: w)).
  { intros c w k H1 H2 H3. apply lx_word; auto; [|left; auto]. rewrite forallb_forall in H2. apply Forall_forall. intros x Hx.
    apply H2 in Hx. unfold identChar, identStart. lia. }
  assert (HD : forall w k, w <> [] -> forallb (fun x => (97 <=? x) && (x <=? 122)) w = true ->
    In (46 :: w, k) keywordTable -> lexeme k (46 :: w) (46 :: w)).
  { intros w k H1 H2 H3. apply lx_dotted; auto; [|left; auto]. rewrite forallb_forall in H2. apply Forall_forall. intros x Hx.
    apply H2 in Hx. unfold letter. lia. }
  intros t H. unfold usedToks, typeToks in H. simpl in H. unfold okLx, lx1. cbn [xTok xText xLit].
  repeat (destruct H as [<-|H];
    [match goal with |- lexeme ?k (tokenName ?k) _ => let n := eval vm_compute in (tokenName k) in change (tokenName k) with n end;
     first [ apply lx_punct; findIn
           | apply HW; [unfold identStart; lia|reflexivity|findIn]
           | apply HD; [discriminate|reflexivity|findIn] ]|]).
  contradiction.
Qed.

Ltac used := apply used_lexeme; simpl; tauto.

Lemma comment_lexeme : forall a w, wfComment w -> okLx (commentLx a w).
Proof. intros a w [H1 H2]. apply lx_comment; auto. Qed.

Lemma lead_lexemes : forall b lead, Forall wfComment lead -> Forall okLx (leadLx b lead).
Proof.
  intros b [|c lead] H; [constructor|]. inversion H; subst. simpl. constructor; [now apply comment_lexeme|].
  apply Forall_forall. intros x Hx. apply in_map_iff in Hx as (w & <- & Hw). apply comment_lexeme. rewrite Forall_forall in *. auto.
Qed.

Lemma tag_lexemes : forall g, wfTag g -> Forall okLx (tagLx g).
Proof.
  intros [|w v|a va b vb] H; simpl in *; [constructor| |].
  - constructor; [|constructor]. apply H.
  - constructor; [|constructor]. destruct H as (D1 & D2 & N1 & N2 & _). apply lx_float; auto; intros ->;
      match goal with K : Numeral [] _ |- _ => destruct K as (? & ? & ? & K & _); inversion K; congruence end.
Qed.

Lemma comma_lexemes : forall c, Forall okLx (commaLx c).
Proof. intros [|]; [|constructor]. constructor; [used|constructor]. Qed.

Lemma show_lexemes : forall X, (forall e, wf X e -> forall c, Forall okLx (show e c)) /\
  (forall es, forall g, wfElems X g es -> forall first, Forall okLx (showElems first es)).
Proof.
  intros X. apply expr_elems_ind.
  - intros a HW c. simpl. constructor; [|apply comma_lexemes]. destruct a as [w|t|[|]|w v|w b|w]; simpl in HW; try used; try (apply HW).
  - intros g HW c. simpl. constructor; [used|]. apply Forall_app. split; [now apply tag_lexemes|apply comma_lexemes].
  - intros g e IH [HW1 HW2] c. simpl. constructor; [used|]. apply Forall_app. split; [now apply tag_lexemes|].
    constructor; [used|]. apply Forall_app. split; [auto|]. constructor; [used|apply comma_lexemes].
  - intros b es IH HW c. simpl. constructor; [destruct b; used|]. apply Forall_app. split; [eapply IH; eauto|].
    constructor; [destruct b; used|apply comma_lexemes].
  - intros p e IH [HW _] c. simpl. constructor; [destruct p; used|auto].
  - intros l IHl o r IHr (HP & HWl & HWr & HO) c. simpl. apply Forall_app. split; auto. constructor; auto.
    destruct o as [[|]|k| | | |[|]|[|]]; simpl; try used. destruct HO as [HO _]. apply used_lexeme. simpl in HO.
    repeat (destruct HO as [<-|HO]; [unfold usedToks, typeToks; simpl; tauto|]). contradiction.
  - intros k arrow v IH tc (HW1 & HW2 & HW3 & HW4) c. simpl. constructor.
    { destruct k; simpl in HW1; apply HW1. }
    constructor; [destruct arrow; used|]. apply Forall_app. split; auto. destruct tc; [|constructor].
    constructor; [now apply comment_lexeme|constructor].
  - intros; constructor.
  - intros lead e IH c r IHr g (HW1 & HW2 & _ & _ & HW5) first. simpl. apply Forall_app. split; [now apply lead_lexemes|].
    apply Forall_app. split; auto. eapply IHr; eauto.
Qed.

Fixpoint lastC (b : bool) (xs : list lexi) : bool :=
  match xs with [] => b | x :: r => lastC (teq (xTok x) COMMENT) r end.

Lemma lastC_app : forall xs ys b, lastC b (xs ++ ys) = lastC (lastC b xs) ys.
Proof. induction xs; intros; simpl; auto. Qed.

Lemma sameOk_app : forall xs ys b, sameOk b (xs ++ ys) <-> sameOk b xs /\ sameOk (lastC b xs) ys.
Proof. induction xs; intros; simpl; [tauto|]. rewrite IHxs. tauto. Qed.

Lemma same_any : forall xs b, Forall (fun x => xAt x <> Same) xs -> sameOk b xs.
Proof. induction xs; intros b H; simpl; auto. inversion H; subst. auto. Qed.

Lemma lead_same : forall first lead b, sameOk b (leadLx first lead).
Proof.
  intros first [|c lead] b; [exact I|]. apply same_any. simpl. constructor; [destruct first; discriminate|].
  apply Forall_forall. intros x Hx. apply in_map_iff in Hx as (w & <- & _). discriminate.
Qed.

Lemma tag_same : forall g b, sameOk b (tagLx g).
Proof. intros g b0. destruct g; simpl; auto; split; auto; discriminate. Qed.

Lemma comma_same : forall c b, sameOk b (commaLx c).
Proof. intros [|] b; simpl; auto; split; auto; discriminate. Qed.

Lemma atom_at : forall a, xAt (atomLx a) = Any.
Proof. destruct a; reflexivity. Qed.

Lemma show_lastC : forall X e c b, wf X e -> spine e = None -> lastC b (show e c) = false.
Proof.
  assert (HC : forall c, lastC false (commaLx c) = false) by (intros [|]; reflexivity).
  assert (HG : forall g, lastC false (tagLx g) = false) by (intros [| |]; reflexivity).
  intros X e. induction e; intros c b' HW HS; simpl in *; try discriminate; rewrite ?lastC_app; simpl; rewrite ?lastC_app; simpl.
  - replace (teq (xTok (atomLx a)) COMMENT) with false; auto. destruct a as [|t|[|]| | |]; auto. simpl in HW. unfold typeToks in HW. simpl in HW.
    repeat (destruct HW as [<-|HW]; [reflexivity|]). contradiction.
  - change (teq HASH COMMENT) with false. now rewrite HG.
  - apply HC.
  - replace (teq (closing b) COMMENT) with false by (destruct b; reflexivity). apply HC.
  - destruct HW. auto.
  - destruct HW as (_ & _ & HW & _). auto.
Qed.

Lemma show_same : forall X, (forall e, wf X e -> forall c b, sameOk b (show e c)) /\
  (forall es, forall g, wfElems X g es -> forall first b, sameOk b (showElems first es)).
Proof.
  intros X. apply expr_elems_ind; simpl.
  - intros a HW c b. rewrite atom_at. split; [discriminate|apply comma_same].
  - intros g HW c b. split; [discriminate|]. apply sameOk_app. split; [apply tag_same|apply comma_same].
  - intros g e IH [HW1 HW2] c b. split; [discriminate|]. apply sameOk_app. split; [apply tag_same|]. simpl. split; [discriminate|].
    apply sameOk_app. split; [apply IH; auto|]. simpl. split; [discriminate|apply comma_same].
  - intros br es IH HW c b. split; [discriminate|]. apply sameOk_app. split; [eapply IH; eauto|]. simpl. split; [discriminate|apply comma_same].
  - intros p e IH [HW _] c b. split; [discriminate|]. auto.
  - intros l IHl o r IHr (HP & HWl & HWr & HO) c b. apply sameOk_app. split; auto. simpl. split; [discriminate|auto].
  - intros k arrow v IH tc (HW1 & HW2 & HW3 & HW4) c b. split; [destruct k; discriminate|]. split; [discriminate|].
    apply sameOk_app. split; auto. destruct tc; simpl; auto. split; auto. intros K. rewrite (show_lastC X v) in K; auto. discriminate.
  - auto.
  - intros lead e IH c r IHr g (HW1 & HW2 & _ & _ & HW5) first b. apply sameOk_app. split; [apply lead_same|].
    apply sameOk_app. split; auto. eapply IHr; eauto.
Qed.

Theorem doc_lexemes : forall X d, wfDoc X d -> Forall okLx (showDoc d) /\ sameOk false (showDoc d).
Proof.
  intros X [rs final] [H1 H2]. unfold showDoc. simpl in *. generalize true as first, false as b. induction rs as [|[lead r] rs IH]; intros first b; simpl.
  - split; [now apply lead_lexemes|apply lead_same].
  - inversion H1 as [|? ? [K1 (W1 & W2 & W3 & W4)] K2]; subst. simpl in *. split.
    + apply Forall_app. split; [now apply lead_lexemes|]. constructor; [exact W1|]. constructor.
      { apply used_lexeme. unfold assignTok in W2. unfold usedToks, typeToks. simpl. intuition. }
      apply Forall_app. split; [apply (proj1 (show_lexemes X)); auto|]. apply (IH K2 false false).
    + apply sameOk_app. split; [apply lead_same|]. simpl. split; [discriminate|]. split; [discriminate|].
      apply sameOk_app. split; [apply (proj1 (show_same X)); auto|]. apply (IH K2 false).
Qed.

(** The printed document writes its lexemes. *)
Theorem printDoc_writes : forall X d, wfDoc X d -> writes (printDoc d) (showDoc d).
Proof. intros X d H. apply doc_lexemes in H as [H1 H2]. now apply print_writes. Qed.
