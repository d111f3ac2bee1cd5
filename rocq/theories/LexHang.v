(** [Hang] means an endless loop, and undecodable sources never reach EOF. *)
From Coq Require Import String.
From Verif Require Import Base Utf8 Token Ext Lexer LexSpec LexSpec2 LexerProofs LexOne LexSeq.
Open Scope string_scope.
Open Scope list_scope.
Open Scope Z_scope.

Lemma decode_width : forall p r w, decodeRune p = (r, w) -> r <> RuneError ->
  1 <= w <= Z.of_nat (length p).
Proof.
  intros p r w H Hr. unfold decodeRune in H.
  destruct p as [|p0 r0]; [inversion H; congruence|].
  destruct (p0 <? 128); [inversion H; subst; simpl length; lia|].
  destruct (utf8Lead p0) as [[[sz lo] hi]|]; [|inversion H; congruence].
  destruct r0 as [|b1 r1]; [inversion H; congruence|].
  destruct (sz =? 2). { destruct (inRangeB lo hi b1); inversion H; subst; [simpl length; lia|congruence]. }
  destruct r1 as [|b2 r2]; [inversion H; congruence|].
  destruct (sz =? 3). { destruct (inRangeB lo hi b1 && inRangeB 128 191 b2); inversion H; subst; [simpl length; lia|congruence]. }
  destruct r2 as [|b3 r3]; [inversion H; congruence|].
  destruct (inRangeB lo hi b1 && inRangeB 128 191 b2 && inRangeB 128 191 b3); inversion H; subst; [simpl length; lia|congruence].
Qed.

(** The read offset stays inside the buffer. *)
Definition wf (l : lexer) : Prop := 0 <= rdOffset l <= Z.of_nat (length (src l)).

Lemma next_cases : forall l, wf l ->
  wf (next l) /\ src (next l) = src l /\
  (next l = l \/ chr (next l) = -1 \/ rdOffset l < rdOffset (next l)).
Proof.
  intros l W. unfold wf in *. unfold next. destruct (Z.leb_spec (Z.of_nat (length (src l))) (rdOffset l)).
  - simpl. auto.
  - destruct (decodeRune _) as [r w] eqn:E. destruct (Z.eqb_spec r RuneError); [auto|].
    apply decode_width in E; auto. rewrite skipn_length in E.
    simpl. split; [lia|]. split; auto. right. right. lia.
Qed.

(** * Fuel exhaustion of a lexer loop is divergence of the Go loop *)

Lemma loopNext_stuck : forall cond l, next l = l -> cond (chr l) = true -> forall m, loopNext cond m l = Hang.
Proof. intros cond l H1 H2. induction m; simpl; rewrite H2; auto. now rewrite H1. Qed.

Lemma loopNext_hang_gen : forall cond, cond (-1) = false -> forall n l, wf l ->
  Z.of_nat (length (src l)) - rdOffset l < Z.of_nat n ->
  loopNext cond n l = Hang -> forall m, loopNext cond m l = Hang.
Proof.
  intros cond Hm1. induction n; intros l W Hn H; [unfold wf in W; lia|].
  simpl in H. destruct (cond (chr l)) eqn:E; [|discriminate].
  destruct (next_cases l W) as (W' & S' & [C|[C|C]]).
  - apply loopNext_stuck; auto.
  - assert (loopNext cond n (next l) = Ok (next l)) as E2 by (destruct n; simpl; rewrite C, Hm1; auto).
    rewrite E2 in H. discriminate.
  - intros m. destruct m; simpl; rewrite E; auto. apply IHn; auto. rewrite S'. lia.
Qed.

Theorem loopNext_hang : forall cond l, cond (-1) = false -> wf l ->
  loopNext cond (loopFuel l) l = Hang -> forall m, loopNext cond m l = Hang.
Proof. intros. eapply loopNext_hang_gen; eauto. unfold wf, loopFuel in *. lia. Qed.

Definition skipStep (l : lexer) : lexer := next (if chr l =? 10 then addLineOffset l (offset l) else l).

Lemma addLine_same : forall l k, src (addLineOffset l k) = src l /\ chr (addLineOffset l k) = chr l /\
  rdOffset (addLineOffset l k) = rdOffset l /\ offset (addLineOffset l k) = offset l /\
  errors (addLineOffset l k) = errors l /\ errCount (addLineOffset l k) = errCount l.
Proof. intros. unfold addLineOffset. destruct (_ <? _); simpl; auto 10. Qed.

(** For [skipWhitespace] the state may change by recorded line offsets; what
    matters is that cursor and source stay put. *)
Lemma skip_stuck : forall m l, 
  (rdOffset l < Z.of_nat (length (src l)) /\
   fst (decodeRune (skipn (Z.to_nat (rdOffset l)) (src l))) = RuneError) ->
  isSpace (chr l) = true -> skipWhitespace m l = Hang.
Proof.
  induction m; intros l [H1 H2] E; simpl; rewrite E; auto.
  set (l1 := if chr l =? 10 then addLineOffset l (offset l) else l).
  assert (Q : src l1 = src l /\ chr l1 = chr l /\ rdOffset l1 = rdOffset l).
  { unfold l1. destruct (chr l =? 10); auto. destruct (addLine_same l (offset l)) as (? & ? & ? & _); auto. }
  destruct Q as (Q1 & Q2 & Q3).
  assert (N : next l1 = l1).
  { unfold next. rewrite Q1, Q3.
    replace (Z.of_nat (length (src l)) <=? rdOffset l) with false by (symmetry; apply Z.leb_gt; lia).
    destruct (decodeRune _) as [r w]. simpl in H2. subst r. reflexivity. }
  rewrite N. apply IHm; rewrite ?Q1, ?Q2, ?Q3; auto.
Qed.

Lemma next_stuck_inv : forall l, wf l -> next l = l -> chr l <> -1 ->
  rdOffset l < Z.of_nat (length (src l)) /\
  fst (decodeRune (skipn (Z.to_nat (rdOffset l)) (src l))) = RuneError.
Proof.
  intros l W H C. unfold next in H. destruct (Z.leb_spec (Z.of_nat (length (src l))) (rdOffset l)).
  - exfalso. apply (f_equal chr) in H. simpl in H. unfold EOFch in H. congruence.
  - split; auto. destruct (decodeRune _) as [r w] eqn:E. destruct (Z.eqb_spec r RuneError); auto.
    apply (f_equal rdOffset) in H. simpl in H. apply decode_width in E; auto. lia.
Qed.

Theorem skipWhitespace_hang : forall l, wf l -> skipWhitespace (loopFuel l) l = Hang ->
  forall m, skipWhitespace m l = Hang.
Proof.
  assert (GEN : forall n l, wf l -> Z.of_nat (length (src l)) - rdOffset l < Z.of_nat n ->
    skipWhitespace n l = Hang -> forall m, skipWhitespace m l = Hang).
  { induction n; intros l W Hn H; [unfold wf in W; lia|].
    simpl in H. destruct (isSpace (chr l)) eqn:E; [|discriminate].
    set (l1 := if chr l =? 10 then addLineOffset l (offset l) else l) in *.
    assert (Q : src l1 = src l /\ chr l1 = chr l /\ rdOffset l1 = rdOffset l).
    { unfold l1. destruct (chr l =? 10); auto. destruct (addLine_same l (offset l)) as (? & ? & ? & _); auto. }
    destruct Q as (Q1 & Q2 & Q3).
    assert (W1 : wf l1) by (unfold wf in *; rewrite Q1, Q3; auto).
    destruct (next_cases l1 W1) as (W' & S' & [C|[C|C]]).
    - intros m. apply skip_stuck; auto. rewrite <- Q1, <- Q3. apply next_stuck_inv; auto.
      rewrite Q2. intros Ec. rewrite Ec in E. discriminate.
    - assert (skipWhitespace n (next l1) = Ok (next l1)) as E2 by (destruct n; simpl; rewrite C; auto).
      rewrite E2 in H. discriminate.
    - intros m. destruct m; simpl; rewrite E; auto. fold l1. apply IHn; auto. rewrite S', Q1. lia. }
  intros l W H. eapply GEN; eauto. unfold wf, loopFuel in *. lia.
Qed.

Theorem stringLoop_hang : forall l, wf l -> stringLoop (loopFuel l) l = Hang ->
  forall m, stringLoop m l = Hang.
Proof.
  assert (ST : forall l, next l = l -> (chr l <? 0) || (chr l =? 10) = false -> (chr l =? 34) = false ->
    forall m, stringLoop m l = Hang).
  { intros l H1 H2 H3. induction m; simpl; rewrite H2, H3; auto. now rewrite H1. }
  assert (GEN : forall n l, wf l -> Z.of_nat (length (src l)) - rdOffset l < Z.of_nat n ->
    stringLoop n l = Hang -> forall m, stringLoop m l = Hang).
  { induction n; intros l W Hn H; [unfold wf in W; lia|].
    simpl in H. destruct ((chr l <? 0) || (chr l =? 10)) eqn:E; [discriminate|].
    destruct (chr l =? 34) eqn:E2; [discriminate|].
    destruct (next_cases l W) as (W' & S' & [C|[C|C]]).
    - apply ST; auto.
    - assert (exists l2, stringLoop n (next l) = Ok l2) as [l2 E3] by (destruct n; simpl; rewrite C; simpl; eauto).
      rewrite E3 in H. discriminate.
    - intros m. destruct m; simpl; rewrite E, E2; auto. apply IHn; auto. rewrite S'. lia. }
  intros l W H. eapply GEN; eauto. unfold wf, loopFuel in *. lia.
Qed.

Theorem numberLoop_hang : forall X l tok, wf l -> numberLoop X (loopFuel l) tok l = Hang ->
  forall m, numberLoop X m tok l = Hang.
Proof.
  intros X.
  assert (ST : forall l, next l = l -> uniIsDigit X (chr l) || ((chr l =? 46) && uniIsDigit X (peek l)) = true ->
    forall m tok, numberLoop X m tok l = Hang).
  { intros l H1 H2. induction m; intros tok; simpl; rewrite H2; auto. rewrite H1. apply IHm. }
  assert (GEN : forall n l tok, wf l -> Z.of_nat (length (src l)) - rdOffset l < Z.of_nat n ->
    numberLoop X n tok l = Hang -> forall m, numberLoop X m tok l = Hang).
  { induction n; intros l tok W Hn H; [unfold wf in W; lia|].
    simpl in H. destruct (uniIsDigit X (chr l) || ((chr l =? 46) && uniIsDigit X (peek l))) eqn:E; [|discriminate].
    destruct (next_cases l W) as (W' & S' & [C|[C|C]]).
    - intros. apply ST; auto.
    - match type of H with numberLoop X n ?tk _ = _ =>
        assert (numberLoop X n tk (next l) = Ok (tk, next l)) as E3 by (destruct n; simpl; rewrite C; auto) end.
      rewrite E3 in H. discriminate.
    - intros m. destruct m; simpl; rewrite E; auto. apply IHn; auto. rewrite S'. lia. }
  intros l tok W H. eapply GEN; eauto. unfold wf, loopFuel in *. lia.
Qed.

(** * Undecodable sources *)

Record Und (l : lexer) : Prop := mkUnd {
  und_wf : wf l;
  und_dec : ~ Dec (skipn (Z.to_nat (rdOffset l)) (src l));
  und_chr : chr l <> -1
}.

Lemma decode_nonneg : forall p r w, bytesOk p -> decodeRune p = (r, w) -> r <> RuneError -> 0 <= r.
Proof.
  intros p r w Hok H Hr. destruct p as [|b s]; [inversion H; congruence|].
  assert (0 <= b < 256) by (inversion Hok; auto).
  destruct (Z_lt_ge_dec b 128) as [L|L].
  - rewrite decode_ascii in H by auto. inversion H; subst; lia.
  - destruct (decode_hi b s r w Hok ltac:(lia) H Hr) as (cs & t & _ & _ & _ & _ & HR & _). lia.
Qed.

Lemma bytesOk_skipn : forall n s, bytesOk s -> bytesOk (skipn n s).
Proof.
  induction n; intros s H; auto. destruct s; auto. inversion H; subst. simpl. apply IHn; auto.
Qed.

Lemma skipn_skipn_add : forall {A} n m (l : list A), skipn n (skipn m l) = skipn (m + n) l.
Proof. induction m; intros l; simpl; auto. destruct l; auto. now rewrite skipn_nil. Qed.

Lemma next_und : forall l, bytesOk (src l) -> Und l -> Und (next l).
Proof.
  intros l Hok [W D C]. destruct (next_cases l W) as (W' & S' & _).
  unfold next in *. destruct (Z.leb_spec (Z.of_nat (length (src l))) (rdOffset l)).
  - exfalso. apply D. rewrite skipn_all2 by (unfold wf in W; lia). constructor.
  - destruct (decodeRune (skipn (Z.to_nat (rdOffset l)) (src l))) as [r w] eqn:E.
    destruct (Z.eqb_spec r RuneError); [split; auto|].
    pose proof (decode_width _ _ _ E n) as HW.
    split; simpl; auto.
    + intros HD. apply D. apply (Dec_rune _ r w); auto.
      * intros HN. rewrite HN in E. inversion E; congruence.
      * rewrite skipn_skipn_add. unfold wf in W. replace (Z.to_nat (rdOffset l) + Z.to_nat w)%nat with (Z.to_nat (rdOffset l + w)) by lia. exact HD.
    + apply decode_nonneg in E; auto; [lia|]. apply bytesOk_skipn; auto.
Qed.

Lemma next_src : forall l, src (next l) = src l.
Proof. intros. apply (same_src _ _ (next_same l)). Qed.

Definition UndOk (B : bytes) (l : lexer) : Prop := src l = B /\ bytesOk B /\ Und l.

Lemma next_undok : forall B l, UndOk B l -> UndOk B (next l).
Proof. intros B l (H1 & H2 & H3). split; [now rewrite next_src|]. split; auto. apply next_und; congruence. Qed.

Lemma addLine_undok : forall B l k, UndOk B l -> UndOk B (addLineOffset l k).
Proof.
  intros B l k (H1 & H2 & [W D C]). destruct (addLine_same l k) as (Q1 & Q2 & Q3 & _).
  split; [congruence|]. split; auto. split; unfold wf in *; rewrite ?Q1, ?Q2, ?Q3; auto.
Qed.

Lemma addError_undok : forall B l k m, UndOk B l -> UndOk B (addError l k m).
Proof. intros B l k m (H1 & H2 & [W D C]). split; [auto|]. split; auto. split; auto. Qed.

Lemma loopNext_undok : forall B cond n l l', UndOk B l -> loopNext cond n l = Ok l' -> UndOk B l'.
Proof.
  induction n; intros l l' U H; simpl in H; destruct (cond (chr l)); try discriminate; try (inversion H; subst; auto).
  eapply IHn; [|exact H]. apply next_undok; auto.
Qed.

Lemma skip_undok : forall B n l l', UndOk B l -> skipWhitespace n l = Ok l' -> UndOk B l'.
Proof.
  induction n; intros l l' U H; simpl in H; destruct (isSpace (chr l)); try discriminate; try (inversion H; subst; auto).
  eapply IHn; [|exact H]. apply next_undok. destruct (chr l =? 10); auto. apply addLine_undok; auto.
Qed.

Lemma string_undok : forall B n l l', UndOk B l -> stringLoop n l = Ok l' -> UndOk B l'.
Proof.
  induction n; intros l l' U H; simpl in H; destruct ((chr l <? 0) || (chr l =? 10)); 
    try (inversion H; subst; apply addError_undok; auto; fail);
    destruct (chr l =? 34); try discriminate; try (inversion H; subst; apply next_undok; auto; fail).
  eapply IHn; [|exact H]. apply next_undok; auto.
Qed.

Lemma number_undok : forall B X n l tok tok' l', UndOk B l -> numberLoop X n tok l = Ok (tok', l') ->
  UndOk B l' /\ (tok' = tok \/ tok' = FLOAT).
Proof.
  induction n; intros l tok tok' l' U H; simpl in H;
    destruct (uniIsDigit X (chr l) || ((chr l =? 46) && uniIsDigit X (peek l))); try discriminate;
    try (inversion H; subst; auto; fail).
  apply IHn in H; [|apply next_undok; auto]. destruct H as [H1 H2]. split; auto.
  destruct (_ && _); destruct H2; auto.
Qed.

Ltac bind_ok H :=
  match type of H with
  | rbind ?e _ = Ok _ => let E := fresh "E" in destruct e eqn:E; cbn [rbind] in H; try discriminate H
  end.

Lemma base_undok : forall B cond p l t lit l', UndOk B l -> scanBaseDigits cond p l = Ok (t, lit, l') ->
  UndOk B l' /\ t <> EOF.
Proof.
  intros B cond p l t lit l' U H. unfold scanBaseDigits in H. bind_ok H. bind_ok H. inversion H; subst.
  split; [eapply loopNext_undok; eauto|congruence].
Qed.

Lemma decimal_undok : forall B X o l t lit l', UndOk B l -> scanDecimal X o l = Ok (t, lit, l') ->
  UndOk B l' /\ t <> EOF.
Proof.
  intros B X o l t lit l' U H. unfold scanDecimal in H. bind_ok H. destruct a as [tk l1]. bind_ok H.
  inversion H; subst. apply number_undok with (B := B) in E; auto. destruct E as [? [?|?]]; split; auto; congruence.
Qed.

Lemma ok_inj3 : forall {A B C} (a a' : A) (b b' : B) (c c' : C), Ok (a, b, c) = Ok (a', b', c') ->
  a = a' /\ b = b' /\ c = c'.
Proof. intros. inversion H; auto. Qed.

Lemma body_undok : forall B X l t lit l', UndOk B l -> scanBody X l = Ok (t, lit, l') ->
  UndOk B l' /\ t <> EOF.
Proof.
  intros B X l t lit l' U H. unfold scanBody in H.
  destruct (isIdentifierStart (chr l)).
  { unfold scanIdentifier in H. bind_ok H. destruct a as [lit0 l1]. bind_ok E. bind_ok E. inversion E; subst.
    inversion H; subst. split; [eapply loopNext_undok; eauto|]. destruct (2 <? _); [apply lookup_ne; simpl; auto|congruence]. }
  destruct (isDigit (chr l)).
  { unfold scanNumber in H.
    destruct ((chr l =? 48) && isxboDigitStart (peek l)); [|eapply decimal_undok; eauto].
    repeat match type of H with (if ?c then _ else _) = _ => destruct c end;
      first [eapply base_undok; [|exact H]|eapply decimal_undok; [|exact H]]; auto using next_undok. }
  pose proof (next_undok _ _ U) as U1. unfold scanDefault in H.
  destruct (punct (chr l)) eqn:EP.
  { inversion H; subst. split; auto. apply punct_ne in EP. tauto. }
  destruct (chr l =? 59).
  { unfold scanComment in H. bind_ok H. destruct a as [lit0 l1]. bind_ok E. bind_ok E. inversion E; subst.
    inversion H; subst. split; [eapply loopNext_undok; eauto|congruence]. }
  destruct (chr l =? 61).
  { destruct (chr (next l) =? 62); inversion H; subst; split; auto using next_undok; congruence. }
  destruct (chr l =? 47).
  { repeat match type of H with (if ?c then _ else _) = _ => destruct c end; inversion H; subst; split;
      auto using next_undok; congruence. }
  destruct (chr l =? 46).
  { destruct (_ && _); [inversion H; subst; split; auto using next_undok; congruence|].
    destruct (chr (next l) =? 46); [inversion H; subst; split; auto using next_undok; congruence|].
    destruct (uniIsLetter X (chr (next l))); [|inversion H; subst; split; auto using next_undok; congruence].
    unfold scanControlOp in H. bind_ok H. destruct a as [lit0 l1]. bind_ok E. bind_ok E. inversion E; subst.
    apply loopNext_undok with (B := B) in E0; auto.
    apply ok_inj3 in H as (H1 & H2 & H3). rewrite <- H1, <- H3. split; auto. apply lookup_ne; simpl; auto. }
  destruct (chr l =? 34).
  { unfold scanString in H. bind_ok H. destruct a as [lit0 l1]. bind_ok E. bind_ok E. inversion E; subst.
    inversion H; subst. split; [eapply string_undok; eauto|congruence]. }
  destruct (Z.eqb_spec (chr l) EOFch).
  { exfalso. destruct U as (_ & _ & [_ _ C]). unfold EOFch in e. congruence. }
  inversion H; subst. split; auto. congruence.
Qed.

Lemma scan_undok : forall B X l t l', UndOk B l -> scan X l = Ok (t, l') -> UndOk B l' /\ tTok t <> EOF.
Proof.
  intros B X l t l' U H. rewrite scan_unfold in H. bind_ok H. bind_ok H. destruct a0 as [[tk lit] l2].
  inversion H; subst. simpl. eapply body_undok; [|eauto]. eapply skip_undok; eauto.
Qed.

Lemma scanLoop_undok : forall B X n l ts, UndOk B l -> scanLoop X n l <> Ok ts.
Proof.
  induction n; intros l ts U H; simpl in H; [discriminate|].
  bind_ok H. destruct a as [t l1]. apply scan_undok with (B := B) in E; auto. destruct E as [U1 NE].
  unfold teq in H. destruct (token_eq_dec (tTok t) EOF); [congruence|]. bind_ok H. eapply IHn; eauto.
Qed.

Lemma scans_undok : forall B X n l ts l', UndOk B l -> scans X n l = Ok (ts, l') ->
  UndOk B l' /\ Forall (fun t => tTok t <> EOF) ts.
Proof.
  induction n; intros l ts l' U H; simpl in H.
  - inversion H; subst; auto.
  - bind_ok H. destruct a as [t l1]. apply scan_undok with (B := B) in E; auto. destruct E as [U1 NE].
    bind_ok H. destruct a as [ts1 l2]. inversion H; subst. apply IHn in E; auto. destruct E; split; auto.
Qed.

Lemma dec_space : forall s, bytesOk s -> Dec (s ++ [32]) -> Dec s.
Proof.
  intros s. remember (length s) as n eqn:En. revert s En.
  induction n as [n IH] using lt_wf_ind. intros s En Hok HD.
  destruct s as [|b s']; [constructor|].
  assert (HK : bytesOk ((b :: s') ++ [32])) by (apply Forall_app; split; auto; constructor; [lia|constructor]).
  destruct (dec_cons _ HK HD ltac:(simpl; congruence)) as (r & cs & t & H1 & H2 & H3 & H4 & H5 & H6 & H7 & H8 & H9).
  (* the rune lies inside s *)
  assert (exists t0, b :: s' = cs ++ t0 /\ t = t0 ++ [32]) as (t0 & T1 & T2).
  { destruct (rev t) as [|x rt] eqn:ER.
    - assert (t = []) by (rewrite <- (rev_involutive t), ER; auto). subst t. rewrite app_nil_r in H1.
      exfalso. destruct H9 as [[_ Hc]|[_ Hc]].
      + rewrite Hc in H1. apply (f_equal (@length Z)) in H1. rewrite app_length in H1. simpl in H1. lia.
      + rewrite <- H1 in Hc. apply Forall_app in Hc as [_ Hc]. inversion Hc; lia.
    - assert (T : t = rev rt ++ [x]) by (rewrite <- (rev_involutive t), ER; auto).
      exists (rev rt). rewrite T in H1. rewrite app_assoc in H1. apply app_inj_tail in H1 as [-> <-]. auto. }
  rewrite T1. apply (Dec_rune _ r (Z.of_nat (length cs))); auto.
  - rewrite <- T1. congruence.
  - rewrite Nat2Z.id, skipn_len_app. apply (IH (length t0)); auto.
    + rewrite En, T1, app_length. lia.
    + rewrite T1 in Hok. apply Forall_app in Hok. tauto.
    + rewrite <- T2. auto.
Qed.

Lemma newLexer_und : forall s, bytesOk s -> ~ Dec s -> UndOk (s ++ [32]) (newLexer s).
Proof.
  intros s Hok HD. unfold newLexer. apply next_undok.
  split; [reflexivity|]. split; [apply Forall_app; split; auto; constructor; [lia|constructor]|].
  split; simpl; [unfold wf; simpl; lia| |lia]. intros H. apply HD. apply dec_space; auto.
Qed.

Lemma newLexer_wf : forall s, wf (newLexer s).
Proof. intros. apply next_cases. unfold wf; simpl. lia. Qed.

Lemma Dec_em : forall s, Dec s \/ ~ Dec s.
Proof.
  intros s. remember (length s) as n eqn:En. revert s En.
  induction n as [n IH] using lt_wf_ind. intros s En.
  destruct (list_eq_dec Z.eq_dec s []) as [->|Hne]; [left; constructor|].
  destruct (decodeRune s) as [r w] eqn:E.
  destruct (Z.eq_dec r RuneError) as [Hr|Hr].
  - right. intros H. inversion H as [|? r' w' ? E' N' H']; subst; [apply Hne; reflexivity|].
    rewrite E in E'. injection E' as <- <-. apply N'; reflexivity.
  - pose proof (decode_width _ _ _ E Hr) as HW.
    assert (L : (length (skipn (Z.to_nat w) s) < n)%nat) by (rewrite skipn_length; lia).
    destruct (IH _ L _ eq_refl) as [D|D].
    + left. exact (Dec_rune s r w Hne E Hr D).
    + right. intros H. inversion H as [|? r' w' ? E' N' H']; subst; [apply Hne; reflexivity|].
      rewrite E in E'. injection E' as <- <-. auto.
Qed.
