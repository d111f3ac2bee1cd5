(** Sequences of Scan calls on decodable sources. *)
From Coq Require Import String.
From Verif Require Import Base Utf8 Token Ext Lexer LexSpec LexSpec2 LexerProofs LexOne.
Open Scope string_scope.
Open Scope list_scope.
Open Scope Z_scope.

(** The lexer has consumed [k] bytes of [s]. *)
Record St (s : bytes) (l : lexer) (k : nat) : Prop := mkSt {
  st_at : At s l (firstn k s) (skipn k s);
  st_good : Good (skipn k s);
  st_lines : lineOffsets l = linesOf (firstn k s);
  st_le : (k <= length s)%nat
}.

Lemma firstn_add : forall (s : bytes) k a b, skipn k s = a ++ b ->
  firstn (k + length a) s = firstn k s ++ a /\ skipn (k + length a) s = b.
Proof.
  intros s k a b H. destruct (le_lt_dec k (length s)) as [L|L].
  - assert (E : length (firstn k s) = k) by (rewrite firstn_length; lia).
    assert (HS : s = (firstn k s ++ a) ++ b) by (rewrite <- app_assoc, <- H, firstn_skipn; auto).
    assert (HL : (k + length a)%nat = length (firstn k s ++ a)) by (rewrite app_length, E; auto).
    rewrite HL. split.
    + rewrite HS at 2. apply firstn_len_app.
    + rewrite HS at 2. apply skipn_len_app.
  - rewrite skipn_all2 in H by lia. symmetry in H. apply app_eq_nil in H as [-> ->].
    simpl. rewrite Nat.add_0_r, app_nil_r. split; auto. apply skipn_all2; lia.
Qed.

Lemma posAt_add : forall (s : bytes) k a b, skipn k s = a ++ b -> (k <= length s)%nat ->
  posAt s (k + length a) = mkPos [] (zlen (firstn k s ++ a)) (1 + newlines (firstn k s ++ a))
                                 (1 + sinceNewline (firstn k s ++ a) 0).
Proof.
  intros s k a b H L. unfold posAt. destruct (firstn_add s k a b H) as [-> _].
  f_equal. unfold zlen. rewrite app_length, firstn_length. lia.
Qed.

Lemma scan_step : forall X s l k, St s l k ->
  let ws := takeB isSpace (skipn k s) in
  match lexOne X (dropB isSpace (skipn k s)) with
  | None => scan X l = Panic
  | Some (tk, text, lit, er) =>
    exists l' rest, skipn k s = ws ++ text ++ rest /\
      dropB isSpace (skipn k s) = text ++ rest /\
      scan X l = Ok (mkTok tk (posAt s (k + length ws)) lit, l') /\
      St s l' (k + length ws + length text) /\
      errors l' = errors l ++ (if er then [mkLexError (Z.of_nat (k + length ws + length text)) msgNewline] else []) /\
      errCount l' = errCount l + (if er then 1 else 0)
  end.
Proof.
  intros X s l k [A G L Hk] ws.
  pose proof (scan_at X s l _ _ A G L) as HS. cbn zeta in HS. fold ws in HS.
  pose proof (take_drop isSpace (skipn k s)) as TD. fold ws in TD.
  destruct (lexOne X (dropB isSpace (skipn k s))) as [[[[tk text] lit] er]|] eqn:E; auto.
  destruct HS as (l' & rest & H1 & H2 & H3 & H4 & H5 & H6 & H7).
  assert (HK : skipn k s = ws ++ text ++ rest) by (rewrite <- H2; auto).
  assert (HK2 : skipn k s = (ws ++ text) ++ rest) by (rewrite <- app_assoc; auto).
  destruct (firstn_add s k _ _ HK2) as [F1 F2]. rewrite app_length in F1, F2.
  rewrite Nat.add_assoc in F1, F2.
  exists l', rest. split; [exact HK|]. split; [exact H2|]. split.
  - rewrite H1. rewrite (posAt_add s k ws (text ++ rest)) by auto. reflexivity.
  - split.
    + split.
      * rewrite F1, F2. exact H3.
      * now rewrite F2.
      * rewrite F1. exact H5.
      * pose proof (f_equal (@length Z) HK) as HL. rewrite skipn_length, !app_length in HL. lia.
    + split; auto. rewrite H6. f_equal. destruct er; auto. do 2 f_equal.
      unfold zlen. rewrite !app_length, firstn_length. lia.
Qed.

Lemma newLexer_st : forall s, decodable s -> St s (newLexer s) 0.
Proof.
  intros s D. destruct (newLexer_at s D) as (A & _ & _ & L & _).
  split; auto. lia.
Qed.

(** * Reading [lexOne] *)

Lemma isSpace_blank : forall c, isSpace c = true <-> blank c.
Proof. intros c. unfold isSpace, blank. rewrite !orb_true_iff, !Z.eqb_eq. tauto. Qed.

Lemma take_blank : forall suf, allBlank (takeB isSpace suf).
Proof.
  intros. apply Forall_forall. intros x Hx. apply isSpace_blank.
  pose proof (takeB_all isSpace suf) as H. rewrite forallb_forall in H. auto.
Qed.

Lemma blank_split : forall g a, allBlank g -> (a = [] \/ ~ blank (hd 0 a)) ->
  takeB isSpace (g ++ a) = g /\ dropB isSpace (g ++ a) = a.
Proof.
  intros g a Hg Ha.
  assert (F : forallb isSpace g = true)
    by (apply forallb_forall; intros x Hx; apply isSpace_blank; unfold allBlank in Hg; rewrite Forall_forall in Hg; auto).
  rewrite takeB_app, dropB_app by auto. destruct a as [|c a]; simpl.
  - rewrite app_nil_r; auto.
  - destruct Ha as [|Ha]; [congruence|]. simpl in Ha.
    destruct (isSpace c) eqn:E; [apply isSpace_blank in E; tauto|]. rewrite app_nil_r; auto.
Qed.

Lemma drop_nonblank : forall suf, dropB isSpace suf = [] \/ ~ blank (hd 0 (dropB isSpace suf)).
Proof.
  intros suf. destruct (dropB isSpace suf) as [|c r] eqn:E; auto. right. simpl.
  apply dropB_hd in E. rewrite <- isSpace_blank. congruence.
Qed.

Lemma lookup_ne : forall s t, In t [COMMENT; EOF] -> lookup s <> t.
Proof.
  intros s t H. unfold lookup. destruct (mapGet keywordInserts s) eqn:E.
  - unfold mapGet in E. destruct (find _ _) as [[kk kt]|] eqn:F; [|discriminate].
    inversion E; subst. apply find_some in F as [F _]. apply in_rev in F.
    vm_compute in F. repeat (destruct F as [F|F]; [inversion F; subst; vm_compute in H; intuition congruence|]).
    contradiction.
  - destruct H as [<-|[<-|[]]]; congruence.
Qed.

Lemma punct_ne : forall c t, punct c = Some t -> t <> COMMENT /\ t <> EOF /\ c <> 34.
Proof.
  intros c t. unfold punct.
  repeat match goal with
  | |- (if ?x =? ?k then _ else _) = _ -> _ =>
      destruct (Z.eqb_spec x k); [intros H; inversion H; subst; repeat split; (congruence || lia)|]
  end. discriminate.
Qed.

Lemma inStr_in : forall c, inStr c = true -> c <> 34 /\ c <> 10.
Proof. intros c H. unfold inStr in H. rewrite !andb_true_iff, !negb_true_iff, !Z.eqb_neq in H. tauto. Qed.

Lemma take_inStr : forall t, ~ In 34 (takeB inStr t) /\ ~ In 10 (takeB inStr t).
Proof.
  intros t. pose proof (takeB_all inStr t) as H. rewrite forallb_forall in H.
  split; intros Hx; apply H in Hx; discriminate.
Qed.

Lemma drop_inStr : forall t, bytesOk t -> hd 0 (dropB inStr t) <> 34 ->
  dropB inStr t = [] \/ hd 0 (dropB inStr t) = 10.
Proof.
  intros t Hok H. destruct (dropB inStr t) as [|c r] eqn:E; auto. right. simpl in *.
  assert (0 <= c).
  { assert (In c t) by (rewrite <- (take_drop inStr t), E; apply in_or_app; right; left; auto).
    unfold bytesOk in Hok. rewrite Forall_forall in Hok. apply Hok in H0. lia. }
  apply dropB_hd in E. unfold inStr in E.
  rewrite !andb_false_iff, !negb_false_iff, Z.leb_gt, !Z.eqb_eq in E. lia.
Qed.

(** The start of an empty unterminated string. *)
Definition badQuote (suf : bytes) : Prop := exists r, suf = 34 :: r /\ (r = [] \/ hd 0 r = 10).

(** An unterminated text literal in full. *)
Definition openText (text rest : bytes) : Prop :=
  exists a, a <> [] /\ text = 34 :: a /\ ~ In 34 a /\ ~ In 10 a /\ (rest = [] \/ hd 0 rest = 10).

Lemma numSuf_fst : forall X m tok suf, tok = INT \/ tok = FLOAT ->
  fst (numSuf X m tok suf) = INT \/ fst (numSuf X m tok suf) = FLOAT.
Proof.
  induction m; intros tok suf H; simpl; auto. destruct (numCond X suf); simpl; auto.
  match goal with |- context [numSuf X m ?a ?b] => specialize (IHm a b); destruct (numSuf X m a b) as [tk a'] end.
  simpl in *. apply IHm. destruct (loneDot _); auto.
Qed.

Lemma lexNum_spec : forall X b t tk a, isDigit b = true -> Good (b :: t) -> lexNum X (b :: t) = (tk, a) ->
  (tk = INT \/ tk = FLOAT) /\ a <> [] /\ hd 0 a = b.
Proof.
  intros X b t tk a Hd G H. pose proof (digit_lt _ Hd) as Hb. unfold lexNum in H.
  assert (HN : numSuf X (length (b :: t)) INT (b :: t) = (tk, a) -> 
     (tk = INT \/ tk = FLOAT) /\ a <> [] /\ hd 0 a = b).
  { intros HN. pose proof (numSuf_fst X (length (b :: t)) INT (b :: t) (or_introl eq_refl)) as HF.
    rewrite HN in HF. split; auto. simpl length in HN. cbn [numSuf] in HN.
    assert (HC : numCond X (b :: t) = true).
    { unfold numCond. rewrite (rune_hdR _ _ _ _ (rune_ascii b t G ltac:(lia))).
      unfold uniIsDigit. replace (b <=? 255) with true by (symmetry; apply Z.leb_le; lia).
      replace (48 <=? b) with true by (symmetry; apply Z.leb_le; lia).
      replace (b <=? 57) with true by (symmetry; apply Z.leb_le; lia). reflexivity. }
    rewrite HC in HN. rewrite decode_ascii in HN by lia. cbn [snd] in HN. change (Z.to_nat 1) with 1%nat in HN. cbn [skipn firstn] in HN.
    match type of HN with context [numSuf X (length t) ?q t] => destruct (numSuf X (length t) q t) end. inversion HN; subst. simpl. split; [congruence|auto]. }
  simpl hd in H. destruct (Z.eqb_spec b 48); auto.
  repeat match type of H with
  | (if ?c then _ else _) = _ => destruct c
  end; auto; inversion H; subst; simpl; (split; [auto|split; [congruence|auto]]).
Qed.

Lemma lexOne_none : forall X suf, Good suf -> (lexOne X suf = None <-> badQuote suf).
Proof.
  intros X suf G. destruct suf as [|b t].
  { simpl. split; [discriminate|]. intros (r & H & _); discriminate. }
  split.
  - unfold lexOne. destruct (isIdentifierStart b); [discriminate|].
    destruct (isDigit b); [destruct (lexNum X (b :: t)); discriminate|].
    destruct (punct b); [discriminate|].
    destruct (b =? 59); [discriminate|].
    destruct (b =? 61); [destruct (hd 0 t =? 62); discriminate|].
    destruct (b =? 47); [destruct (lexSlash t); discriminate|].
    destruct (b =? 46); [destruct (lexDot X t); discriminate|].
    destruct (b =? 34) eqn:E; [|discriminate]. apply Z.eqb_eq in E.
    destruct (hd 0 (dropB inStr t) =? 34) eqn:E2; [discriminate|].
    destruct (takeB inStr t) eqn:E3; [|discriminate]. intros _.
    exists t. split; [congruence|]. apply Z.eqb_neq in E2.
    pose proof (take_drop inStr t) as TD. rewrite E3 in TD. simpl in TD. 
    destruct (drop_inStr t) as [H|H]; auto.
    + subst b. apply (good_tail 34 t) in G; [apply G|lia].
    + left. congruence.
    + right. congruence.
  - intros (r & H & Hr). inversion H; subst. unfold lexOne.
    change (isIdentifierStart 34) with false. change (isDigit 34) with false.
    change (punct 34) with (@None token). cbn match.
    change (34 =? 59) with false. change (34 =? 61) with false. change (34 =? 47) with false.
    change (34 =? 46) with false. change (34 =? 34) with true. cbn match.
    destruct Hr as [->|Hr]; [reflexivity|]. destruct r as [|c r]; [reflexivity|]. simpl in Hr. subst c.
    reflexivity.
Qed.

Ltac split_some H := 
  match type of H with
  | Some (?a, ?b, ?c, ?d) = Some (?a', ?b', ?c', ?d') =>
    let E1 := fresh "E1" in let E2 := fresh "E2" in let E3 := fresh "E3" in let E4 := fresh "E4" in
    assert (E1 : a = a') by congruence; assert (E2 : b = b') by congruence;
    assert (E3 : c = c') by congruence; assert (E4 : d = d') by congruence; clear H
  end.

Lemma lexOne_spec : forall X suf tk text lit er rest, Good suf ->
  (suf = [] \/ ~ blank (hd 0 suf)) ->
  lexOne X suf = Some (tk, text, lit, er) -> suf = text ++ rest ->
  tokText tk text rest lit /\ (er = true <-> openText text rest).
Proof.
  intros X suf tk text lit er rest G Hb H HS.
  assert (N10 : ~ In 10 text).
  { assert (F : Forall (fun c => c <> 10) text).
    { eapply (lexOne_noNl X suf); eauto. intros t E. destruct Hb as [Hb|Hb]; [congruence|].
      apply Hb. rewrite E. simpl. unfold blank; auto. }
    rewrite Forall_forall in F. intros HI. apply F in HI. congruence. }
  destruct suf as [|b t].
  { simpl in H. split_some H. subst. simpl in HS. split.
    - left. repeat split; auto.
    - split; [discriminate|]. intros (a & _ & E & _); discriminate. }
  assert (NotOpen : forall x, hd 0 x <> 34 -> ~ openText x rest).
  { intros x Hx (a & _ & E & _). subst x. simpl in Hx; congruence. }
  assert (Plain : er = false -> lit = text -> tk <> EOF -> tk <> COMMENT -> text <> [] -> hd 0 text <> 34 ->
     tokText tk text rest lit /\ (er = true <-> openText text rest)).
  { intros -> -> ? ? ? ?. split.
    - right. repeat split; auto. apply lit_same; auto.
    - split; [discriminate|]. intros HO. exfalso. eapply NotOpen; eauto. }
  assert (Hhd : text <> [] -> hd 0 text = b).
  { intros Hne. destruct text as [|x text']; [congruence|]. simpl in HS. simpl. congruence. }
  unfold lexOne in H. destruct (isIdentifierStart b) eqn:EI.
  { split_some H. pose proof (ident_start_lt _ EI).
    assert (text <> []) by (rewrite <- E2; cbn [takeB]; unfold isIdentifierBodyChar; rewrite EI; simpl; congruence).
    apply Plain; auto; try congruence.
    - unfold identTok in E1. rewrite <- E1. destruct (2 <? _); [apply lookup_ne; simpl; auto|congruence].
    - unfold identTok in E1. rewrite <- E1. destruct (2 <? _); [apply lookup_ne; simpl; auto|congruence].
    - rewrite Hhd by auto. intros E; rewrite E in EI; discriminate. }
  destruct (isDigit b) eqn:ED.
  { destruct (lexNum X (b :: t)) as [tk' a] eqn:EN. split_some H.
    destruct (lexNum_spec _ _ _ _ _ ED G EN) as (Q1 & Q2 & Q3). pose proof (digit_lt _ ED).
    subst. apply Plain; auto; try (destruct Q1; congruence). lia. }
  destruct (punct b) eqn:EP.
  { split_some H. destruct (punct_ne _ _ EP) as (Q1 & Q2 & Q3). subst. apply Plain; auto; congruence. }
  destruct (b =? 59) eqn:E59.
  { apply Z.eqb_eq in E59. split_some H. subst. split.
    - right. repeat split; auto; try congruence. constructor.
    - split; [discriminate|]. intros HO; exfalso; eapply NotOpen; eauto. simpl; lia. }
  destruct (b =? 61) eqn:E61.
  { destruct (hd 0 t =? 62); split_some H; subst; apply Plain; auto; simpl; try congruence; lia. }
  destruct (b =? 47) eqn:E47.
  { unfold lexSlash in H. destruct (hd 0 t =? 61); [|destruct (hd 0 t =? 47); [destruct (hd 0 (tl t) =? 61)|]];
    split_some H; subst; apply Plain; auto; simpl; try congruence; lia. }
  destruct (b =? 46) eqn:E46.
  { unfold lexDot in H. destruct (hd 0 t =? 46); [destruct (hd 0 (tl t) =? 46)|destruct (uniIsLetter X (hdR t))];
    split_some H; subst; apply Plain; auto; simpl; try congruence; try lia; apply lookup_ne; simpl; auto. }
  destruct (b =? 34) eqn:E34.
  { apply Z.eqb_eq in E34. destruct (take_inStr t) as [T1 T2].
    pose proof (take_drop inStr t) as TD.
    destruct (hd 0 (dropB inStr t) =? 34) eqn:EH.
    - split_some H. split.
      + right. subst. repeat split; try congruence; auto. now constructor.
      + subst. split; [discriminate|]. intros (a & _ & E & HN & _). inversion E; subst.
        exfalso. apply HN. apply in_or_app; right; left; auto.
    - destruct (takeB inStr t) as [|a0 a] eqn:ET; [discriminate|].
      split_some H. rewrite <- E2 in HS. subst b. simpl in HS.
      assert (HR : rest = dropB inStr t).
      { assert (HS2 : t = (a0 :: a) ++ rest) by (simpl; congruence).
        rewrite <- TD in HS2 at 1. apply app_inv_head in HS2. auto. }
      assert (HE : rest = [] \/ hd 0 rest = 10).
      { rewrite HR. apply drop_inStr; [|apply Z.eqb_neq; auto].
        apply (good_tail 34 t) in G; [apply G|lia]. }
      assert (HL : a0 :: a = removelast (a0 :: a) ++ [last (a0 :: a) 0])
        by (apply app_removelast_last; congruence).
      split.
      + right. split; [congruence|]. split; [congruence|]. split; [auto|].
        rewrite <- E1, <- E2, <- E3. rewrite HL at 1. apply lit_open; auto. rewrite <- HL. auto.
      + split; auto. intros _. exists (a0 :: a). split; [congruence|]. split; [auto|].
        split; [auto|]. split; [auto|exact HE]. }
  split_some H.
  destruct (good_rune _ G ltac:(congruence)) as (r & cs & t' & R). pose proof (rune_decode _ _ _ _ R) as Hd.
  rewrite Hd in E2, E3. cbn [snd] in E2, E3. rewrite Nat2Z.id in E2, E3.
  rewrite (ru_split _ _ _ _ R), firstn_len_app in E2, E3.
  assert (text <> []) by (pose proof (ru_len _ _ _ _ R); rewrite <- E2; destruct cs; simpl in *; [lia|congruence]).
  apply Plain; auto; try congruence. rewrite Hhd by auto. apply Z.eqb_neq; auto.
Qed.

(** * Sequences *)

Lemma scan_step_full : forall X s l k, St s l k -> 
  (badQuote (dropB isSpace (skipn k s)) /\ scan X l = Panic) \/
  (~ badQuote (dropB isSpace (skipn k s)) /\
   exists g tk text lit rest l' er,
      skipn k s = g ++ text ++ rest /\ allBlank g /\ tokText tk text rest lit /\
      lexOne X (dropB isSpace (skipn k s)) = Some (tk, text, lit, er) /\
      scan X l = Ok (mkTok tk (posAt s (k + length g)) lit, l') /\
      St s l' (k + length g + length text) /\
      ((~ openText text rest /\ errors l' = errors l /\ errCount l' = errCount l) \/
       (openText text rest /\
        errors l' = errors l ++ [mkLexError (Z.of_nat (k + length g + length text)) msgNewline] /\
        errCount l' = errCount l + 1))).
Proof.
  intros X s l k H. pose proof (scan_step X s l k H) as HS. cbn zeta in HS.
  assert (G1 : Good (dropB isSpace (skipn k s))).
  { destruct H as [A G L Hk].
    destruct (skip_at s (loopFuel l) l _ _ A G (at_len _ _ _ _ A) L) as (l1 & _ & _ & G1 & _). exact G1. }
  pose proof (lexOne_none X _ G1) as HN.
  destruct (lexOne X (dropB isSpace (skipn k s))) as [[[[tk text] lit] er]|] eqn:E.
  - right. split; [rewrite <- HN; discriminate|].
    destruct HS as (l' & rest & H1 & H2 & H3 & H4 & H5 & H6).
    exists (takeB isSpace (skipn k s)), tk, text, lit, rest, l', er.
    destruct (lexOne_spec X _ _ _ _ _ rest G1 (drop_nonblank _) E H2) as [S1 S2].
    split; [auto|]. split; [apply take_blank|]. split; [auto|].
    split; [|split; [exact H3|split; [exact H4|]]]; [reflexivity|].
    destruct er.
      * right. tauto.
      * left. rewrite app_nil_r in H5. split; [|split; [auto|lia]]. intros HO. apply S2 in HO. discriminate.
  - left. split; auto. tauto.
Qed.

Lemma covers_app : forall s k ts k1 ts' k2, covers s k ts k1 -> covers s k1 ts' k2 ->
  covers s k (ts ++ ts') k2.
Proof. intros s k ts k1 ts' k2 H. induction H; intros; simpl; auto. econstructor; eauto. Qed.

Lemma scans_st : forall X s n l k ts l', St s l k -> scans X n l = Ok (ts, l') ->
  exists k', covers s k ts k' /\ St s l' k' /\ (k <= k')%nat.
Proof.
  intros X s. induction n; intros l k ts l' HS H; simpl in H.
  - inversion H; subst. exists k. split; [apply cov_nil|]. split; [exact HS|lia].
  - destruct (scan_step_full X s l k HS) as [[_ E]|(_ & g & tk & text & lit & rest & l1 & er & H1 & H2 & H3 & _ & H5 & H6 & _)].
    + rewrite E in H. discriminate.
    + rewrite H5 in H. cbn [rbind] in H.
      destruct (scans X n l1) as [[ts' l2]| | |] eqn:E; cbn [rbind] in H; try discriminate.
      inversion H; subst. destruct (IHn _ _ _ _ H6 E) as (k' & Q1 & Q2 & Q3).
      exists k'. split; [econstructor; eauto|]. split; [auto|lia].
Qed.

Lemma scans_new : forall X s n ts l, decodable s -> scans X n (newLexer s) = Ok (ts, l) ->
  exists k, covers s 0 ts k /\ St s l k.
Proof.
  intros X s n ts l D H. destruct (scans_st X s n _ _ _ _ (newLexer_st s D) H) as (k & H1 & H2 & _).
  eauto.
Qed.

Lemma scan_total : forall X s l k, St s l k -> scan X l = Panic \/ exists t l', scan X l = Ok (t, l').
Proof.
  intros X s l k H. destruct (scan_step_full X s l k H) as [[_ E]|(_ & g & tk & text & lit & rest & l1 & er & _ & _ & _ & _ & H5 & _)]; eauto.
Qed.

(** EOF within |unread| + 1 calls. *)
Lemma scanLoop_ends : forall X s n l k, St s l k -> (length (skipn k s) < n)%nat ->
  scanLoop X n l = Panic \/ exists ts, scanLoop X n l = Ok ts.
Proof.
  intros X s. induction n; intros l k HS Hn; [lia|]. simpl scanLoop.
  destruct (scan_step_full X s l k HS) as [[_ E]|(_ & g & tk & text & lit & rest & l1 & er & H1 & H2 & H3 & _ & H5 & H6 & _)].
  - rewrite E. auto.
  - rewrite H5. cbn [rbind tTok]. destruct (teq tk EOF) eqn:ET; eauto.
    destruct H3 as [[? _]|(_ & Hne & _)]; [subst; discriminate|].
    assert (Hn' : (length (skipn (k + length g + length text) s) < n)%nat).
    { pose proof (f_equal (@length Z) H1) as HL. rewrite !app_length in HL.
      rewrite skipn_length in *. destruct text; [congruence|]. simpl length in *. lia. }
    destruct (IHn l1 _ H6 Hn') as [E|[ts E]]; rewrite E; cbn [rbind]; eauto.
Qed.
