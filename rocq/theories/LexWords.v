(** Lexemes lex to themselves. *)
From Coq Require Import String.
From Verif Require Import Base Utf8 Token Ext Lexer LexSpec LexSpec2 LexerProofs LexOne LexSeq.
Open Scope string_scope.
Open Scope list_scope.
Open Scope Z_scope.

(** * Character classes *)

Lemma identStart_b : forall c, isIdentifierStart c = true <-> identStart c.
Proof.
  intros. unfold isIdentifierStart, identStart.
  rewrite !orb_true_iff, !andb_true_iff, !Z.leb_le, !Z.eqb_eq. tauto.
Qed.
Lemma identChar_b : forall c, isIdentifierBodyChar c = true <-> identChar c.
Proof.
  intros. unfold isIdentifierBodyChar, identChar, isDigit.
  rewrite !orb_true_iff, !andb_true_iff, !Z.leb_le, !Z.eqb_eq, identStart_b. tauto.
Qed.
Lemma digit_b : forall c, isDigit c = true <-> digit c.
Proof. intros. unfold isDigit, digit. rewrite andb_true_iff, !Z.leb_le. tauto. Qed.
Lemma letter_b : forall c, isLetter c = true <-> letter c.
Proof. intros. unfold isLetter, letter. rewrite !orb_true_iff, !andb_true_iff, !Z.leb_le. tauto. Qed.
Lemma hex_b : forall c, isHex c = true <-> hexDigit c.
Proof. intros. unfold isHex, hexDigit. rewrite !orb_true_iff, !andb_true_iff, !Z.leb_le, digit_b. tauto. Qed.
Lemma oct_b : forall c, isOctal c = true <-> octDigit c.
Proof. intros. unfold isOctal, octDigit. rewrite !andb_true_iff, !Z.leb_le. tauto. Qed.
Lemma bin_b : forall c, isBinary c = true <-> binDigit c.
Proof. intros. unfold isBinary, binDigit. rewrite !orb_true_iff, !Z.eqb_eq. tauto. Qed.

Lemma forallb_P : forall (p : Z -> bool) (P : Z -> Prop) w, (forall c, p c = true <-> P c) ->
  (forallb p w = true <-> Forall P w).
Proof. intros p P w H. rewrite forallb_forall, Forall_forall. split; intros Q x Hx; apply H; auto. Qed.

(** * Decodability *)

Lemma dec_app : forall a b, bytesOk a -> Dec a -> Dec b -> Dec (a ++ b).
Proof.
  intros a. remember (length a) as n eqn:En. revert a En.
  induction n as [n IH] using lt_wf_ind. intros a En b Hok HD HB.
  destruct a as [|x a']; [exact HB|].
  destruct (dec_cons _ Hok HD ltac:(congruence)) as (r & cs & t & H1 & H2 & H3 & H4 & H5 & H6 & H7 & H8 & H9).
  rewrite H1, <- app_assoc. apply (Dec_rune _ r (Z.of_nat (length cs))); auto.
  - destruct cs; simpl in *; [lia|congruence].
  - rewrite Nat2Z.id, skipn_len_app. apply (IH (length t)); auto. rewrite En, H1, app_length. lia.
Qed.

Lemma good_app : forall a b, Good a -> Good b -> Good (a ++ b).
Proof. intros a b [] []. split; [apply Forall_app; auto|apply dec_app; auto]. Qed.

Lemma good_nil : Good [].
Proof. split; constructor. Qed.

Lemma good_ascii : forall w, Forall (fun c => 0 <= c < 128) w -> Good w.
Proof.
  induction w; intros H; [apply good_nil|]. inversion H; subst.
  destruct (IHw H3) as [G1 G2]. split.
  - constructor; auto. lia.
  - apply (Dec_rune _ a 1); auto; try congruence.
    + apply decode_ascii; lia.
    + unfold RuneError; lia.
Qed.

Lemma good_blank : forall g, allBlank g -> Good g.
Proof. intros g H. apply good_ascii. eapply Forall_impl; [|exact H]. unfold blank. simpl. lia. Qed.

Lemma punct_ascii : forall w tk, In (w, tk) punctTable -> Forall (fun c => 0 <= c < 128) w.
Proof.
  intros w tk H. unfold punctTable in H. simpl in H.
  repeat (destruct H as [H|H]; [inversion H; subst; repeat constructor; lia|]). contradiction.
Qed.

Lemma lexeme_good : forall tk text lit, lexeme tk text lit -> Good text.
Proof.
  intros tk text lit H. inversion H; subst.
  - apply good_ascii. constructor; [unfold identStart in *; lia|].
    eapply Forall_impl; [|eassumption]. unfold identChar, identStart; simpl; lia.
  - apply good_ascii. constructor; [lia|]. eapply Forall_impl; [|eassumption]. unfold letter; simpl; lia.
  - apply good_ascii. eapply Forall_impl; [|eassumption]. unfold digit; simpl; lia.
  - apply good_ascii. constructor; [lia|]. constructor; [lia|]. eapply Forall_impl; [|eassumption]. unfold hexDigit, digit; simpl; lia.
  - apply good_ascii. constructor; [lia|]. constructor; [lia|]. eapply Forall_impl; [|eassumption]. unfold binDigit; simpl; lia.
  - apply good_ascii. constructor; [lia|]. constructor; [lia|]. eapply Forall_impl; [|eassumption]. unfold octDigit; simpl; lia.
  - apply good_ascii. apply Forall_app. split; [|constructor; [lia|]]; (eapply Forall_impl; [|eassumption]); unfold digit; simpl; lia.
  - apply good_ascii. eapply punct_ascii; eauto.
  - apply (good_app [34]); [apply good_ascii; repeat constructor; lia|].
    apply good_app; auto. apply good_ascii; repeat constructor; lia.
  - apply (good_app [59]); auto. apply good_ascii; repeat constructor; lia.
Qed.

(** * Keywords *)

Lemma beq_eq : forall a b, beq a b = true <-> a = b.
Proof.
  induction a; destruct b; simpl; split; intros H; try congruence; try discriminate.
  - apply andb_true_iff in H as [H1 H2]. apply Z.eqb_eq in H1. apply IHa in H2. congruence.
  - inversion H; subst. rewrite Z.eqb_refl. simpl. now apply IHa.
Qed.

Lemma inserts_table : keywordInserts = keywordTable.
Proof. vm_compute. reflexivity. Qed.

Lemma table_nodup : NoDup (map fst keywordTable).
Proof.
  assert (N : forall l : list bytes, (fix nd (l : list bytes) := match l with [] => true | x :: r => negb (existsb (beq x) r) && nd r end) l = true -> NoDup l).
  { induction l; intros H; [constructor|]. apply andb_true_iff in H as [H1 H2]. constructor; auto.
    rewrite negb_true_iff in H1. intros HI. 
    assert (existsb (beq a) l = true) by (apply existsb_exists; exists a; split; auto; apply beq_eq; auto). congruence. }
  apply N. vm_compute. reflexivity.
Qed.

Lemma nodup_fun : forall (l : list (bytes * token)) w t1 t2, NoDup (map fst l) -> In (w, t1) l -> In (w, t2) l -> t1 = t2.
Proof.
  induction l as [|[w0 t0] l IH]; simpl; intros w t1 t2 N H1 H2; [contradiction|]. inversion N; subst.
  destruct H1 as [H1|H1], H2 as [H2|H2].
  - congruence.
  - inversion H1; subst. exfalso. apply H3. apply (in_map fst) in H2. exact H2.
  - inversion H2; subst. exfalso. apply H3. apply (in_map fst) in H1. exact H1.
  - eauto.
Qed.

Lemma lookup_kind : forall w tk, kindOf w tk <-> lookup w = tk.
Proof.
  intros w tk. unfold lookup, mapGet. rewrite inserts_table.
  destruct (find (fun kv => beq (fst kv) w) (rev keywordTable)) as [[w' t']|] eqn:F.
  - apply find_some in F as [F1 F2]. simpl in F2. apply beq_eq in F2. subst w'. apply in_rev in F1. simpl.
    unfold kindOf. split.
    + intros [H|[_ H]]; [|exfalso; eapply H; eauto]. eapply nodup_fun; eauto using table_nodup.
    + intros <-. auto.
  - assert (NI : forall t', ~ In (w, t') keywordTable).
    { intros t' HI. apply in_rev in HI. apply (find_none _ _ F) in HI. simpl in HI.
      assert (beq w w = true) by (apply beq_eq; auto). congruence. }
    unfold kindOf. split.
    + intros [H|[H _]]; [exfalso; eapply NI; eauto|auto].
    + intros <-. auto.
Qed.

Lemma short_word : forall w, (length w <= 2)%nat -> lookup w = IDENT.
Proof.
  intros w H. apply lookup_kind. right. split; auto. intros t HI.
  unfold keywordTable in HI. simpl in HI.
  repeat (destruct HI as [HI|HI]; [inversion HI; subst; simpl in H; lia|]). contradiction.
Qed.

Lemma identTok_lookup : forall w, identTok w = lookup w.
Proof.
  intros w. unfold identTok. destruct (Z.ltb_spec 2 (Z.of_nat (length w))); auto.
  symmetry. apply short_word. lia.
Qed.

(** * Lexemes *)

Lemma take_stop : forall (p : Z -> bool) w rest, forallb p w = true -> p (hd 0 rest) = false \/ rest = [] ->
  takeB p (w ++ rest) = w /\ dropB p (w ++ rest) = rest.
Proof.
  intros p w rest F H. rewrite takeB_app, dropB_app by auto.
  destruct rest as [|c r]; simpl.
  - now rewrite app_nil_r.
  - destruct H as [H|H]; [|congruence]. simpl in H. now rewrite H, app_nil_r.
Qed.

Lemma ends_hd : forall tk rest, ends tk rest -> rest = [] \/ blank (hd 0 rest).
Proof. intros tk rest [H|(c & r & -> & H & _)]; auto. Qed.

Lemma ends_stop : forall (p : Z -> bool) tk rest, ends tk rest ->
  p 32 = false -> p 13 = false -> p 10 = false -> p 9 = false -> p (hd 0 rest) = false \/ rest = [].
Proof.
  intros p tk rest H H1 H2 H3 H4. apply ends_hd in H as [->|H]; auto. left.
  destruct H as [->|[->|[->| ->]]]; auto.
Qed.

Lemma uniDigit_ascii : forall X c, c < 256 -> uniIsDigit X c = isDigit c.
Proof. intros. unfold uniIsDigit, isDigit. replace (c <=? 255) with true by (symmetry; apply Z.leb_le; lia). auto. Qed.

(** One step of the number loop over an ASCII byte. *)
Lemma numSuf_ascii : forall X m tok c t, Good (c :: t) -> c < 128 ->
  numSuf X (S m) tok (c :: t) =
  if isDigit c || ((c =? 46) && uniIsDigit X (hd 32 t))
  then let '(tk, a) := numSuf X m (if loneDot t then FLOAT else tok) t in (tk, c :: a)
  else (tok, []).
Proof.
  intros X m tok c t G H. cbn [numSuf]. unfold numCond.
  rewrite (rune_hdR _ _ _ _ (rune_ascii c t G H)), peekB_ascii by auto.
  rewrite decode_ascii by auto. cbn [snd]. change (Z.to_nat 1) with 1%nat. cbn [skipn firstn app].
  rewrite (uniDigit_ascii X c) by lia. reflexivity.
Qed.

Lemma loneDot_spec : forall t, Good t -> (forall c r, t = c :: r -> c < 128) ->
  loneDot t = (hd 0 t =? 46) && negb (hd 32 (tl t) =? 46).
Proof.
  intros t G H. destruct t as [|c r]; auto. unfold loneDot.
  rewrite (rune_hdR _ _ _ _ (rune_ascii c r G (H c r eq_refl))), peekB_ascii by eauto. reflexivity.
Qed.

(** Where a decimal digit run may stop. *)
Definition numStop (X : Ext) (rest : bytes) : Prop :=
  rest = [] \/ (hd 0 rest < 128 /\ isDigit (hd 0 rest) = false /\
                (hd 0 rest = 46 -> hd 32 (tl rest) = 46)).

Lemma numSuf_stop : forall X m tok rest, Good rest -> numStop X rest -> numSuf X m tok rest = (tok, []).
Proof.
  intros X m tok rest G H. destruct m; auto. destruct H as [->|(H1 & H2 & H3)]; [reflexivity|].
  destruct rest as [|c t]; [reflexivity|]. cbn [hd tl] in *.
  rewrite numSuf_ascii by auto.
  rewrite H2. destruct (Z.eqb_spec c 46) as [->|]; [|reflexivity]. rewrite (H3 eq_refl). reflexivity.
Qed.

Lemma numStop_dot : forall X rest, Good rest -> numStop X rest -> loneDot rest = false.
Proof.
  intros X rest G [->|(H1 & H2 & H3)]; auto. rewrite loneDot_spec; auto.
  - destruct (Z.eqb_spec (hd 0 rest) 46); auto. now rewrite (H3 e).
  - intros c r ->. auto.
Qed.

Lemma numSuf_digits : forall X w m tok rest, Forall digit w -> Good (w ++ rest) -> numStop X rest ->
  (length w <= m)%nat -> numSuf X m tok (w ++ rest) = (tok, w).
Proof.
  induction w as [|c w IH]; intros m tok rest F G HS Hm.
  - simpl in *. apply numSuf_stop; auto.
  - simpl in Hm. destruct m as [|m]; [lia|]. inversion F as [|? ? Hc Fw]; subst.
    assert (H : c < 128) by (unfold digit in *; lia).
    pose proof (good_tail c (w ++ rest) G H) as G1.
    simpl app. rewrite numSuf_ascii by auto. replace (isDigit c) with true by (symmetry; apply digit_b; auto). cbn [orb].
    assert (LD : loneDot (w ++ rest) = false).
    { destruct w as [|d w']; [simpl; eapply numStop_dot; eauto|]. inversion Fw as [|? ? Hd Fw']; subst.
      rewrite loneDot_spec; auto.
      - simpl hd. replace (d =? 46) with false; auto. symmetry; apply Z.eqb_neq; unfold digit in *; lia.
      - intros c0 r E. simpl in E. inversion E; subst. unfold digit in *; lia. }
    rewrite LD, IH by (auto; lia). reflexivity.
Qed.

Lemma numSuf_float : forall X a b m tok rest, Forall digit a -> Forall digit b -> b <> [] ->
  Good (a ++ 46 :: b ++ rest) -> numStop X rest -> (length a + 1 + length b <= m)%nat ->
  numSuf X m tok (a ++ 46 :: b ++ rest) = ((match a with [] => tok | _ => FLOAT end), a ++ 46 :: b).
Proof.
  induction a as [|c a IH]; intros b m tok rest Fa Fb Hb G HS Hm.
  - cbn [app length] in *. destruct m as [|m]; [lia|]. destruct b as [|d b']; [congruence|].
    pose proof (good_tail 46 _ G ltac:(lia)) as G1.
    rewrite numSuf_ascii by (auto; lia). change (isDigit 46) with false. change (46 =? 46) with true. cbn [orb andb app hd].
    inversion Fb as [|? ? Hd Fb']; subst.
    rewrite uniDigit_ascii by (unfold digit in *; lia). replace (isDigit d) with true by (symmetry; apply digit_b; auto).
    assert (LD : loneDot (d :: b' ++ rest) = false).
    { rewrite loneDot_spec; auto.
      - simpl hd. replace (d =? 46) with false; auto. symmetry; apply Z.eqb_neq; unfold digit in *; lia.
      - intros c0 r E. inversion E; subst. unfold digit in *; lia. }
    rewrite LD. pose proof (numSuf_digits X (d :: b') m tok rest Fb G1 HS ltac:(simpl in *; lia)) as E.
    simpl app in E. rewrite E. reflexivity.
  - simpl in Hm. destruct m as [|m]; [lia|]. inversion Fa as [|? ? Hc Fa']; subst.
    assert (H : c < 128) by (unfold digit in *; lia).
    simpl app in G |- *. pose proof (good_tail c _ G H) as G1.
    rewrite numSuf_ascii by auto. replace (isDigit c) with true by (symmetry; apply digit_b; auto). cbn [orb].
    rewrite IH by (auto; lia). destruct a as [|d a']; [|reflexivity].
    assert (LD : loneDot ([] ++ 46 :: b ++ rest) = true).
    { simpl app. rewrite loneDot_spec; auto.
      - simpl hd. simpl tl. destruct b as [|e b']; [congruence|]. simpl. inversion Fb; subst.
        replace (e =? 46) with false; auto. symmetry; apply Z.eqb_neq; unfold digit in *; lia.
      - intros c0 r E. inversion E; subst. lia. }
    rewrite LD. reflexivity.
Qed.

Lemma ends_numStop : forall X tk rest, ends tk rest -> numStop X rest.
Proof.
  intros X tk rest H. apply ends_hd in H as [H|H]; [left; auto|right].
  unfold blank in H. destruct H as [-> | [-> | [-> | ->]]]; (split; [lia|split; [reflexivity|lia]]).
Qed.

(** A decimal run is not a base prefix. *)
Lemma lexNum_dec : forall X c t, (c = 48 -> isxboDigitStart (hd 0 t) = false) ->
  lexNum X (c :: t) = numSuf X (length (c :: t)) INT (c :: t).
Proof.
  intros X c t H. unfold lexNum. simpl hd. simpl tl. destruct (Z.eqb_spec c 48); auto.
  specialize (H e). unfold isxboDigitStart in H. rewrite !orb_false_iff in H. destruct H as [[-> ->] ->]. reflexivity.
Qed.

Lemma digit_not_start : forall c, digit c -> isIdentifierStart c = false /\ isDigit c = true.
Proof.
  intros c H. split; [|apply digit_b; auto]. unfold digit in H.
  unfold isIdentifierStart. rewrite !orb_false_iff, !andb_false_iff, !Z.leb_gt, !Z.eqb_neq. lia.
Qed.

Lemma lexOne_digit : forall X c t, digit c ->
  lexOne X (c :: t) = let '(tk, a) := lexNum X (c :: t) in Some (tk, a, a, false).
Proof. intros X c t H. unfold lexOne. destruct (digit_not_start c H) as [-> ->]. reflexivity. Qed.

Lemma xbo_digit : forall t, digit (hd 0 t) \/ hd 0 t = 46 -> isxboDigitStart (hd 0 t) = false.
Proof.
  intros t H. unfold isxboDigitStart. rewrite !orb_false_iff, !Z.eqb_neq. unfold digit in H. lia.
Qed.

Lemma int_lex : forall X w rest, w <> [] -> Forall digit w -> Good (w ++ rest) -> numStop X rest ->
  (w = [48] -> isxboDigitStart (hd 0 rest) = false) ->
  lexOne X (w ++ rest) = Some (INT, w, w, false).
Proof.
  intros X w rest Hne F G HS H0. destruct w as [|c w]; [congruence|]. inversion F as [|? ? Hc Fw]; subst.
  simpl app. rewrite lexOne_digit by auto. rewrite lexNum_dec.
  - pose proof (numSuf_digits X (c :: w) (length (c :: w ++ rest)) INT rest F G HS) as E.
    simpl app in E. rewrite E; auto. simpl. rewrite app_length. lia.
  - intros ->. destruct w as [|d w']; [apply H0; auto|]. simpl hd. inversion Fw; subst.
    apply (xbo_digit (d :: w')). simpl; auto.
Qed.

Lemma float_lex : forall X a b rest, a <> [] -> b <> [] -> Forall digit a -> Forall digit b ->
  Good ((a ++ 46 :: b) ++ rest) -> numStop X rest ->
  lexOne X ((a ++ 46 :: b) ++ rest) = Some (FLOAT, a ++ 46 :: b, a ++ 46 :: b, false).
Proof.
  intros X a b rest Ha Hb Fa Fb G HS. destruct a as [|c a]; [congruence|]. inversion Fa as [|? ? Hc Fw]; subst.
  rewrite <- app_assoc in G |- *. simpl app in G |- *. rewrite lexOne_digit by auto. rewrite lexNum_dec.
  - pose proof (numSuf_float X (c :: a) b (length (c :: a ++ 46 :: b ++ rest)) INT rest Fa Fb Hb G HS) as E.
    simpl app in E. rewrite E; auto. simpl. rewrite app_length. simpl. rewrite app_length. lia.
  - intros _. destruct a as [|d a']; simpl; [reflexivity|]. inversion Fw; subst. apply (xbo_digit (d :: a')). simpl; auto.
Qed.

Lemma base_lex : forall X q w rest (p : Z -> bool), 
  (q = 120 /\ p = isHex \/ q = 98 /\ p = isBinary \/ q = 111 /\ p = isOctal) ->
  forallb p w = true -> (p (hd 0 rest) = false \/ rest = []) ->
  lexOne X (48 :: q :: w ++ rest) = Some (INT, 48 :: q :: w, 48 :: q :: w, false).
Proof.
  intros X q w rest p HQ F HS. rewrite lexOne_digit by (unfold digit; lia).
  unfold lexNum. cbn [hd tl]. change (48 =? 48) with true. cbn match.
  destruct (take_stop p w rest F HS) as [T _].
  destruct HQ as [[-> ->]|[[-> ->]|[-> ->]]].
  - change (120 =? 120) with true. cbn match. now rewrite T.
  - change (98 =? 120) with false. change (98 =? 98) with true. cbn match. now rewrite T.
  - change (111 =? 120) with false. change (111 =? 98) with false. change (111 =? 111) with true. cbn match. now rewrite T.
Qed.

Lemma word_lex : forall X c w rest, isIdentifierStart c = true -> forallb isIdentifierBodyChar w = true ->
  (isIdentifierBodyChar (hd 0 rest) = false \/ rest = []) ->
  lexOne X (c :: w ++ rest) = Some (lookup (c :: w), c :: w, c :: w, false).
Proof.
  intros X c w rest H1 H2 H3. unfold lexOne. rewrite H1.
  assert (F : forallb isIdentifierBodyChar (c :: w) = true).
  { simpl. rewrite H2. unfold isIdentifierBodyChar. now rewrite H1. }
  destruct (take_stop isIdentifierBodyChar (c :: w) rest F H3) as [T _]. simpl app in T. rewrite T.
  now rewrite identTok_lookup.
Qed.

Lemma text_lex : forall X w rest, ~ In 34 w -> ~ In 10 w -> bytesOk w ->
  lexOne X ((34 :: w ++ [34]) ++ rest) = Some (TEXT_LITERAL, 34 :: w ++ [34], w, false).
Proof.
  intros X w rest H1 H2 HB. 
  assert (F : forallb inStr w = true).
  { apply forallb_forall. intros x Hx. unfold bytesOk in HB. rewrite Forall_forall in HB. apply HB in Hx as Hx'.
    unfold inStr. rewrite !andb_true_iff, !negb_true_iff, Z.leb_le, !Z.eqb_neq.
    repeat split; try lia; intros ->; auto. }
  destruct (take_stop inStr w ([34] ++ rest) F ltac:(left; reflexivity)) as [T D].
  simpl app. rewrite <- app_assoc. 
  change (lexOne X (34 :: w ++ [34] ++ rest)) with
    (if hd 0 (dropB inStr (w ++ [34] ++ rest)) =? 34
     then Some (TEXT_LITERAL, 34 :: takeB inStr (w ++ [34] ++ rest) ++ [34], takeB inStr (w ++ [34] ++ rest), false)
     else match takeB inStr (w ++ [34] ++ rest) with
          | [] => None
          | _ => Some (TEXT_LITERAL, 34 :: takeB inStr (w ++ [34] ++ rest), removelast (takeB inStr (w ++ [34] ++ rest)), true)
          end).
  rewrite T, D. reflexivity.
Qed.

Lemma lexeme_lex : forall X tk text lit rest, lexeme tk text lit -> ends tk rest -> Good rest ->
  lexOne X (text ++ rest) = Some (tk, text, lit, false) /\ text <> [] /\ ~ blank (hd 0 text).
Proof.
  intros X tk text lit rest H HE G. pose proof (lexeme_good _ _ _ H) as GT.
  pose proof (good_app _ _ GT G) as GA.
  inversion H; subst.
  - split; [|split; [congruence|simpl; unfold blank, identStart in *; lia]].
    apply lookup_kind in H2. subst tk. simpl app. apply word_lex.
    + apply identStart_b; auto.
    + apply (forallb_P _ _ _ identChar_b); auto.
    + eapply ends_stop; eauto.
  - split; [|split; [congruence|simpl; unfold blank; lia]].
    apply lookup_kind in H2. subst tk.
    assert (F : forallb isLetter w = true) by (apply (forallb_P _ _ _ letter_b); auto).
    destruct (take_stop isLetter w rest F) as [T _]; [eapply ends_stop; eauto|].
    destruct w as [|c w]; [congruence|]. inversion H1; subst.
    change (lexOne X ((46 :: c :: w) ++ rest)) with
      (let '(tk, a) := lexDot X ((c :: w) ++ rest) in Some (tk, a, a, false)).
    unfold lexDot. rewrite T. simpl hd.
    replace (c =? 46) with false by (symmetry; apply Z.eqb_neq; unfold letter in *; lia).
    assert (UL : uniIsLetter X (hdR ((c :: w) ++ rest)) = true).
    { rewrite (rune_hdR _ c [c] (w ++ rest)).
      - unfold uniIsLetter. replace (c <=? 255) with true by (symmetry; apply Z.leb_le; unfold letter in *; lia).
        apply letter_b in H4. unfold isLetter in H4. rewrite orb_true_iff in H4. 
        destruct H4 as [-> | ->]; rewrite ?orb_true_r; auto.
      - apply rune_ascii; [|unfold letter in *; lia]. apply (good_tail 46 (c :: w ++ rest)); [exact GA|lia]. }
    rewrite UL. reflexivity.
  - split; [|split; [auto|]].
    + apply int_lex; auto. { eapply ends_numStop; eauto. }
      intros _. destruct (ends_hd _ _ HE) as [->|HB]; [reflexivity|].
      unfold isxboDigitStart. rewrite !orb_false_iff, !Z.eqb_neq. unfold blank in HB. lia.
    + destruct lit as [|c w]; [congruence|]. inversion H1; subst. simpl. unfold blank, digit in *. lia.
  - split; [|split; [congruence|simpl; unfold blank; lia]]. simpl app.
    apply (base_lex X 120 w rest isHex); [auto|apply (forallb_P _ _ _ hex_b); auto|eapply ends_stop; eauto].
  - split; [|split; [congruence|simpl; unfold blank; lia]]. simpl app.
    apply (base_lex X 98 w rest isBinary); [auto|apply (forallb_P _ _ _ bin_b); auto|eapply ends_stop; eauto].
  - split; [|split; [congruence|simpl; unfold blank; lia]]. simpl app.
    apply (base_lex X 111 w rest isOctal); [auto|apply (forallb_P _ _ _ oct_b); auto|eapply ends_stop; eauto].
  - split; [|split; [destruct a; simpl; congruence|]].
    + apply float_lex; auto. eapply ends_numStop; eauto.
    + destruct a as [|c a]; [congruence|]. inversion H2; subst. simpl. unfold blank, digit in *. lia.
  - assert (HH : rest = [] \/ (exists c r, rest = c :: r /\ blank c))
      by (destruct HE as [->|(c & r & -> & HB & _)]; eauto).
    assert (HR : uniIsLetter X (hdR rest) = false).
    { destruct HH as [->|(c & r & -> & HB)]; [reflexivity|].
      assert (c < 128) by (unfold blank in HB; lia).
      rewrite (rune_hdR _ _ _ _ (rune_ascii c r G H1)).
      destruct HB as [-> | [-> | [-> | ->]]]; reflexivity. }
    assert (HX : forall k, 32 < k -> hd 0 rest =? k = false).
    { intros k Hk. apply Z.eqb_neq. destruct HH as [->|(c & r & -> & HB)]; simpl; [lia|unfold blank in HB; lia]. }
    unfold punctTable in H0. simpl in H0.
    repeat (destruct H0 as [H0|H0];
      [injection H0 as <- <-; (split; [|split; [congruence|simpl; unfold blank; lia]]);
       cbn [app]; unfold lexOne, lexSlash, lexDot; cbn [hd tl];
       rewrite ?HR, ?HX by lia; reflexivity|]). contradiction.
  - split; [|split; [congruence|simpl; unfold blank; lia]]. apply text_lex; auto. apply H0.
  - split; [|split; [congruence|simpl; unfold blank; lia]].
    assert (F : forallb notNl lit = true).
    { apply forallb_forall. intros x Hx. destruct H0 as [HB _]. unfold bytesOk in HB. rewrite Forall_forall in HB.
      apply HB in Hx as Hx'. unfold notNl. rewrite !andb_true_iff, !negb_true_iff, Z.leb_le, !Z.eqb_neq.
      split; [lia|]. intros ->; auto. }
    destruct (take_stop notNl lit rest F) as [T _].
    { destruct HE as [->|(c & r & -> & _ & Hc)]; auto. left. rewrite (Hc eq_refl). reflexivity. }
    change (lexOne X ((59 :: lit) ++ rest)) with
      (Some (COMMENT, 59 :: takeB notNl (lit ++ rest), takeB notNl (lit ++ rest), false)).
    now rewrite T.
Qed.

(** * Spaced sources *)

Lemma spaced_good : forall s items, spaced s items -> Good s.
Proof.
  intros s items H. induction H; [apply good_blank; auto|].
  apply good_app; [apply good_blank; auto|]. apply good_app; auto. eapply lexeme_good; eauto.
Qed.

Lemma blank_end : forall w, allBlank w -> takeB isSpace w = w /\ dropB isSpace w = [].
Proof.
  intros w H. pose proof (blank_split w [] H (or_introl eq_refl)) as Q. rewrite app_nil_r in Q. exact Q.
Qed.

Lemma spaced_scan : forall X s items n l k, St s l k -> spaced (skipn k s) items -> (length items < n)%nat ->
  scanLoop X n l = Ok (expected s k items).
Proof.
  intros X s items. induction items as [|[[[g tk] text] lit] items IH]; intros n l k HS HSp Hn.
  - destruct n as [|n]; [lia|]. inversion HSp; subst.
    pose proof (scan_step X s l k HS) as H1. cbn zeta in H1.
    destruct (blank_end _ H) as [T D]. rewrite D, T in H1. cbn [lexOne] in H1.
    destruct H1 as (l' & rest & Q1 & Q2 & Q3 & Q4 & _). simpl scanLoop. rewrite Q3. cbn [rbind tTok].
    change (teq EOF EOF) with true. cbn match. simpl expected.
    replace (k + length (skipn k s))%nat with (length s); auto. rewrite skipn_length. destruct HS. lia.
  - destruct n as [|n]; [lia|]. inversion HSp as [|? ? ? ? rest ? H3 H4 H6 H7 H0]; subst.
    pose proof (spaced_good _ _ H7) as GR.
    destruct (lexeme_lex X _ _ _ _ H4 H6 GR) as (L1 & L2 & L3).
    pose proof (scan_step X s l k HS) as HStep. cbn zeta in HStep.
    destruct (blank_split g (text ++ rest) H3) as [T D].
    { right. destruct text; [congruence|]. simpl in *. auto. }
    rewrite <- H0 in HStep. rewrite T, D, L1 in HStep. rewrite H0 in HStep.
    destruct HStep as (l' & rest' & Q1 & Q2 & Q3 & Q4 & _).
    simpl scanLoop. rewrite Q3. cbn [rbind tTok].
    assert (HNE : teq tk EOF = false).
    { unfold teq. destruct (token_eq_dec tk EOF); auto. exfalso. subst tk. inversion H4 as [? ? ? ? ? K|? ? ? ? K| | | | | |? ? K| |]; subst.
      - apply lookup_kind in K. apply (lookup_ne (c :: w) EOF); simpl; auto.
      - apply lookup_kind in K. apply (lookup_ne (46 :: w) EOF); simpl; auto.
      - unfold punctTable in K. simpl in K. repeat (destruct K as [K|K]; [congruence|]). contradiction. }
    rewrite HNE. 
    assert (Q5 : skipn (k + length g + length text) s = rest).
    { symmetry in H0. assert (H0' : skipn k s = (g ++ text) ++ rest) by (rewrite <- app_assoc; auto).
      destruct (firstn_add s k _ _ H0') as [_ F]. rewrite app_length, Nat.add_assoc in F. exact F. }
    rewrite (IH n l' (k + length g + length text)%nat Q4); [reflexivity| |simpl in Hn; lia].
    rewrite Q5. exact H7.
Qed.
