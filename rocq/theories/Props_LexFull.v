(** Property C66: the complete lexical grammar. *)
From Coq Require Import String.
From Verif Require Import Base Utf8 Token Ext Lexer LexSpec LexSpec2 LexSpec3 LexerProofs LexOne LexSeq LexWords Props_Lexer.
Open Scope string_scope.
Open Scope list_scope.
Open Scope Z_scope.

(** ** From the suffix lexer to the grammar *)

Lemma rune_starts : forall s r cs t, Rune s r cs t -> startsWith s r.
Proof. intros s r cs t R. split; [eapply rune_ne; eauto|]. eexists. eapply rune_decode; eauto. Qed.

Lemma starts_hdR : forall s r, startsWith s r -> hdR s = r.
Proof. intros [|c s] r [H (w & E)]; [congruence|]. unfold hdR. now rewrite E. Qed.

Lemma starts_fun : forall s r r', startsWith s r -> startsWith s r' -> r = r'.
Proof. intros s r r' H H'. apply starts_hdR in H, H'. congruence. Qed.

Lemma peekB_dot : forall t, peekB (46 :: t) = hd 32 t.
Proof. intros. apply peekB_ascii. lia. Qed.

Lemma numCond_iff : forall X s, Good s -> (numCond X s = true <-> goesOn X s).
Proof.
  intros X s G. destruct s as [|b s'].
  - split; [discriminate|]. intros [(r & [H _] & _)|(d & t & H & _)]; congruence.
  - destruct (good_rune _ G ltac:(congruence)) as (r & cs & t & R).
    pose proof (rune_hdR _ _ _ _ R) as Hr. unfold numCond. rewrite Hr. rewrite orb_true_iff, andb_true_iff, Z.eqb_eq. split.
    + intros [H|[-> H]]; [left; exists r; split; auto; eapply rune_starts; eauto|right].
      destruct (ru_case _ _ _ _ R) as [[_ Hc]|[Hc _]]; [|lia].
      pose proof (ru_split _ _ _ _ R) as Hs. rewrite Hc in Hs. simpl in Hs. injection Hs as -> Hs.
      rewrite peekB_dot in H. destruct s' as [|d u]; [vm_compute in H; discriminate|]. cbn [hd] in H.
      pose proof (good_nn _ _ (good_tail _ _ G ltac:(lia))).
      exists d, u. split; auto. rewrite uniDigit_ascii in H by lia. now apply digit_b.
    + intros [(r' & H & H')|(d & u & H & H')].
      * apply starts_hdR in H. left. congruence.
      * injection H as -> ->. right. split.
        -- rewrite <- Hr. unfold hdR. rewrite decode_ascii by lia. reflexivity.
        -- rewrite peekB_dot. cbn [hd]. unfold digit in H'. rewrite uniDigit_ascii by lia. now apply digit_b.
Qed.

Lemma loneDot_iff : forall s, Good s -> (loneDot s = true <-> exists t, s = 46 :: t /\ hd 0 t <> 46).
Proof.
  intros s G. destruct s as [|b s'].
  - split; [discriminate|]. intros (t & H & _); congruence.
  - destruct (good_rune _ G ltac:(congruence)) as (r & cs & t & R).
    pose proof (rune_hdR _ _ _ _ R) as Hr. unfold loneDot. rewrite Hr. rewrite andb_true_iff, negb_true_iff, Z.eqb_eq. split.
    + intros [-> H]. destruct (ru_case _ _ _ _ R) as [[_ Hc]|[Hc _]]; [|lia].
      pose proof (ru_split _ _ _ _ R) as Hs. rewrite Hc in Hs. simpl in Hs. injection Hs as -> Hs.
      rewrite peekB_dot in H. exists s'. split; auto. rewrite hd_eqb in H by lia. now apply Z.eqb_neq.
    + intros (u & H & H'). injection H as -> ->. split.
      * rewrite <- Hr. unfold hdR. rewrite decode_ascii by lia. reflexivity.
      * rewrite peekB_dot, hd_eqb by lia. now apply Z.eqb_neq.
Qed.

(** Cutting off the rune at the front. *)
Lemma rune_front : forall cs t r, Good (cs ++ t) -> cs <> [] -> decodeRune (cs ++ t) = (r, Z.of_nat (length cs)) -> Rune (cs ++ t) r cs t.
Proof.
  intros cs t r G N E. destruct (good_rune (cs ++ t) G) as (r' & cs' & t' & R).
  { destruct cs; simpl; congruence. }
  pose proof (rune_decode _ _ _ _ R) as E'. rewrite E in E'. injection E' as -> E'. apply Nat2Z.inj in E'.
  pose proof (ru_split _ _ _ _ R) as Hs.
  assert (cs = cs').
  { apply (f_equal (firstn (length cs))) in Hs. rewrite firstn_len_app in Hs. rewrite E' in Hs. now rewrite firstn_len_app in Hs. }
  subst cs'. apply app_inv_head in Hs. subst t'. exact R.
Qed.

Lemma rune_cut : forall s r cs t, Rune s r cs t -> skipn (Z.to_nat (snd (decodeRune s))) s = t /\ firstn (Z.to_nat (snd (decodeRune s))) s = cs.
Proof.
  intros s r cs t R. rewrite (rune_decode _ _ _ _ R). cbn [snd]. rewrite Nat2Z.id. rewrite (ru_split _ _ _ _ R).
  now rewrite skipn_len_app, firstn_len_app.
Qed.

Lemma numSuf_num : forall X m tok s tk a, Good s -> (length s <= m)%nat -> numSuf X m tok s = (tk, a) ->
  exists rest, s = a ++ rest /\ Num X a rest /\ (tk = tok \/ tk = FLOAT) /\
    ((exists b c t, b <> [] /\ a = b ++ c /\ c ++ rest = 46 :: t /\ hd 0 t <> 46) -> tk = FLOAT) /\
    (tk <> tok -> exists b c t, b <> [] /\ a = b ++ c /\ c ++ rest = 46 :: t /\ hd 0 t <> 46).
Proof.
  intros X. induction m; intros tok s tk a G Hm H.
  - destruct s; [|simpl in Hm; lia]. injection H as <- <-. exists []. split; auto. split.
    + constructor. intros [(r & [K _] & _)|(d & t & K & _)]; congruence.
    + split; auto. split; [|congruence]. intros (b & c & t & N & E & _). destruct b; [congruence|discriminate].
  - cbn [numSuf] in H. destruct (numCond X s) eqn:EC.
    + assert (s <> []) by (intros ->; discriminate EC).
      destruct (good_rune _ G H0) as (r & cs & t & R). destruct (rune_cut _ _ _ _ R) as [E1 E2]. rewrite E1, E2 in H. clear E1 E2.
      destruct (numSuf X m (if loneDot t then FLOAT else tok) t) as [tk' a'] eqn:ES. injection H as <- <-.
      pose proof (ru_good _ _ _ _ R) as Gt. pose proof (ru_split _ _ _ _ R) as Hs. pose proof (ru_len _ _ _ _ R) as HL.
      assert (Hm' : (length t <= m)%nat) by (rewrite Hs, app_length in Hm; lia).
      destruct (IHm _ _ _ _ Gt Hm' ES) as (rest & Ha & HN & HT & HD & HD').
      assert (Hcs : cs <> []) by (destruct cs; simpl in HL; [lia|congruence]).
      exists rest. split; [rewrite Hs, Ha; apply app_assoc|]. split.
      * apply numCond_iff in EC; auto. destruct EC as [(r' & K & K')|(d & u & K & K')].
        -- assert (r' = r) by (eapply starts_fun; eauto using rune_starts). subst r'.
           apply (Nm_digit X r cs a' rest); auto. rewrite <- Ha, <- Hs. eapply rune_decode; eauto.
        -- assert (RR : r = 46 /\ cs = [46]).
           { pose proof (rune_hdR _ _ _ _ R) as Hr. rewrite K in Hr. unfold hdR in Hr. rewrite decode_ascii in Hr by lia. simpl in Hr.
             split; auto. destruct (ru_case _ _ _ _ R) as [[_ Hc]|[Hc _]]; [congruence|lia]. }
           destruct RR as [-> ->]. simpl. apply (Nm_dot X a' rest d u); auto. rewrite <- Ha. rewrite Hs in K. simpl in K. congruence.
      * pose proof (loneDot_iff t Gt) as LD. destruct (loneDot t) eqn:EL.
        -- assert (tk' = FLOAT) by (destruct HT; auto). subst tk'. split; auto. split; auto.
           intros _. destruct (proj1 LD eq_refl) as (u & Hu & Hu'). exists cs, a', u. rewrite <- Ha. auto.
        -- split; auto. split.
           ++ intros (b & c & u & N & E & E' & Hu).
              (* the dot cannot be inside the first rune *)
              destruct (le_lt_dec (length cs) (length b)) as [LE|LT].
              ** assert (exists b', b = cs ++ b' /\ a' = b' ++ c) as (b' & -> & ->).
                 { exists (skipn (length cs) b). pose proof E as E0. apply (f_equal (firstn (length cs))) in E.
                   rewrite firstn_len_app, firstn_app in E. replace (length cs - length b)%nat with 0%nat in E by lia. simpl in E. rewrite app_nil_r in E.
                   assert (B : b = cs ++ skipn (length cs) b) by (rewrite E at 1; now rewrite firstn_skipn).
                   split; auto. rewrite B in E0. rewrite <- app_assoc in E0. now apply app_inv_head in E0. }
                 destruct b' as [|x b'].
                 --- exfalso. assert (false = true) by (apply LD; exists u; rewrite Ha; auto). discriminate.
                 --- apply HD. exists (x :: b'), c, u. split; [congruence|auto].
              ** exfalso. assert (exists d, cs = b ++ d /\ d <> [] /\ c = d ++ a') as (d & -> & Nd & ->).
                 { exists (skipn (length b) cs). pose proof E as E0. apply (f_equal (firstn (length b))) in E.
                   rewrite firstn_len_app, firstn_app in E. replace (length b - length cs)%nat with 0%nat in E by lia. simpl in E. rewrite app_nil_r in E.
                   assert (B : cs = b ++ skipn (length b) cs) by (rewrite <- E at 1; now rewrite firstn_skipn).
                   split; auto. split.
                   - intros K. rewrite K, app_nil_r in B. subst cs. lia.
                   - rewrite B in E0. rewrite <- app_assoc in E0. now apply app_inv_head in E0. }
                 destruct d as [|x d]; [congruence|]. simpl in E'. injection E' as -> E'.
                 destruct (ru_case _ _ _ _ R) as [[_ Hc]|[Hc F]].
                 --- apply (f_equal (@length Z)) in Hc. rewrite app_length in Hc. simpl in Hc. destruct b; [congruence|simpl in Hc; lia].
                 --- rewrite Forall_forall in F. specialize (F 46). assert (K : In 46 (b ++ 46 :: d)) by (apply in_or_app; right; now left). apply F in K. lia.
           ++ intros K. destruct (HD' K) as (b & c & u & N & E & E' & Hu). exists (cs ++ b), c, u.
              split; [destruct cs; simpl; congruence|]. split; [rewrite E; apply app_assoc|auto].
    + injection H as <- <-. exists s. split; auto. split.
      * constructor. intros K. apply numCond_iff in K; auto. congruence.
      * split; auto. split; [|congruence]. intros (b & c & t & N & E & _). destruct b; [congruence|discriminate].
Qed.

(** The number loop takes what the grammar says. *)
Lemma num_numSuf : forall X a rest, Num X a rest -> Good (a ++ rest) -> forall m tok, (length (a ++ rest) <= m)%nat ->
  exists tk, numSuf X m tok (a ++ rest) = (tk, a).
Proof.
  intros X a rest H. induction H as [rest HS|r cs t rest HN HD HU H IH|t rest d u HE HD H IH]; intros G m tok Hm.
  - destruct m; [exists tok; reflexivity|]. cbn [app numSuf]. destruct (numCond X rest) eqn:E; [|eauto].
    exfalso. apply HS. apply numCond_iff; auto.
  - rewrite <- app_assoc in *. pose proof (rune_front _ _ _ G HN HD) as R.
    assert (0 < length cs)%nat by (destruct cs; simpl; [congruence|lia]).
    destruct m as [|m]; [rewrite app_length in Hm; lia|].
    cbn [numSuf]. replace (numCond X (cs ++ t ++ rest)) with true.
    2:{ symmetry. apply numCond_iff; auto. left. exists r. split; auto. eapply rune_starts; eauto. }
    destruct (rune_cut _ _ _ _ R) as [-> ->].
    destruct (IH (ru_good _ _ _ _ R) m (if loneDot (t ++ rest) then FLOAT else tok)) as [tk ->]; [rewrite app_length in Hm; lia|]. eauto.
  - cbn [app] in *. pose proof (rune_ascii 46 (t ++ rest) G ltac:(lia)) as R.
    destruct m as [|m]; [simpl in Hm; lia|].
    cbn [numSuf]. replace (numCond X (46 :: t ++ rest)) with true.
    2:{ symmetry. apply numCond_iff; auto. right. exists d, u. rewrite HE. auto. }
    destruct (rune_cut _ _ _ _ R) as [-> ->].
    destruct (IH (ru_good _ _ _ _ R) m (if loneDot (t ++ rest) then FLOAT else tok)) as [tk ->]; [simpl in Hm; lia|]. eauto.
Qed.

Lemma base_iff : forall c, (exists P, Base c P) <-> isxboDigitStart c = true.
Proof.
  intros c. split.
  - intros (P & H). inversion H; reflexivity.
  - intros H. apply xbo_cases in H as [->|[->| ->]]; eexists; constructor.
Qed.

Lemma not_base : forall c, (forall P, ~ Base c P) <-> isxboDigitStart c = false.
Proof.
  intros c. pose proof (base_iff c) as B. destruct (isxboDigitStart c).
  - split; [|discriminate]. intros H. destruct (proj2 B eq_refl) as [P K]. destruct (H P K).
  - split; auto. intros _ P K. assert (false = true) by (apply B; eauto). discriminate.
Qed.

Lemma stops_b : forall (p : Z -> bool) (P : Z -> Prop) rest, (forall c, p c = true <-> P c) ->
  (stops P rest <-> p (hd 0 rest) = false \/ rest = []).
Proof.
  intros p P rest H. unfold stops. rewrite <- H. destruct (p (hd 0 rest)); intuition congruence.
Qed.

Lemma takeP : forall (p : Z -> bool) (P : Z -> Prop) s, (forall c, p c = true <-> P c) -> Forall P (takeB p s) /\ stops P (dropB p s).
Proof.
  intros p P s H. split.
  - apply (forallb_P p P); auto. apply takeB_all.
  - apply (stops_b p P); auto. destruct (dropB p s) eqn:E; auto. left. eapply dropB_hd; eauto.
Qed.

(** No two punctuations differ in where they stop, but those that start with =, / or a dot. *)
Ltac tab H := repeat (destruct H as [H|H]; [|]); try contradiction.

Lemma punct_table : forall b tk, punct b = Some tk -> In ([b], tk) punctTable /\ forall rest, longest [b] rest.
Proof.
  intros b tk. unfold punct.
  repeat match goal with
  | |- (if ?x =? ?k then _ else _) = _ -> _ => 
    destruct (Z.eqb_spec x k); [intros H; injection H as <-; subst b; split; [simpl; auto 40|];
      intros rest w' tk' u HI E; unfold punctTable in HI; simpl in HI; tab HI; injection HI as <- <-; simpl in *; first [lia | discriminate E]|]
  end. discriminate.
Qed.

Lemma lexNum_lexed : forall X b t tk a, Good (b :: t) -> digit b -> lexNum X (b :: t) = (tk, a) ->
  exists rest, b :: t = a ++ rest /\ Lexed X tk a a rest.
Proof.
  intros X b t tk a G D H. 
  assert (HB : (b = 48 /\ isxboDigitStart (hd 0 t) = true) \/ (b = 48 -> isxboDigitStart (hd 0 t) = false)).
  { destruct (Z.eq_dec b 48); [|right; congruence]. destruct (isxboDigitStart (hd 0 t)); auto. }
  destruct HB as [[-> HB]|HB].
  - destruct t as [|c t]; [discriminate HB|]. cbn [hd] in HB. unfold lexNum in H. cbn [hd tl] in H. change (48 =? 48) with true in H. cbn match in H.
    apply xbo_cases in HB as [->|[->| ->]].
    + change (120 =? 120) with true in H. injection H as <- <-. exists (dropB isHex t). cbn [app]. rewrite take_drop. split; auto.
      destruct (takeP isHex hexDigit t hex_b). eapply Lx_base; eauto. constructor.
    + change (98 =? 120) with false in H. change (98 =? 98) with true in H. injection H as <- <-. exists (dropB isBinary t). cbn [app]. rewrite take_drop. split; auto.
      destruct (takeP isBinary binDigit t bin_b). eapply Lx_base; eauto. constructor.
    + change (111 =? 120) with false in H. change (111 =? 98) with false in H. change (111 =? 111) with true in H. injection H as <- <-. exists (dropB isOctal t). cbn [app]. rewrite take_drop. split; auto.
      destruct (takeP isOctal octDigit t oct_b). eapply Lx_base; eauto. constructor.
  - pose proof H as H0. rewrite lexNum_dec in H by auto.
    destruct (numSuf_num X _ _ _ _ _ G (le_n _) H) as (rest & E & HN & HT & HD & HD').
    destruct (lexNum_spec X b t tk a (proj2 (digit_b b) D) G H0) as (_ & Na & Ha).
    destruct a as [|c w]; [congruence|]. cbn [hd] in Ha. subst c. exists rest. split; auto. simpl in E. injection E as E.
    assert (NB : b = 48 -> forall P, ~ Base (hd 0 (w ++ rest)) P) by (intros K; rewrite <- E; now apply not_base, HB).
    destruct HT as [->| ->].
    + apply Lx_int; auto. intros K. apply HD in K. discriminate.
    + apply Lx_float; auto. apply HD'. discriminate.
Qed.

Lemma lexOne_lexed : forall X s tk text lit er, Good s -> (s = [] \/ ~ blank (hd 0 s)) -> lexOne X s = Some (tk, text, lit, er) ->
  exists rest, s = text ++ rest /\ Lexed X tk text lit rest.
Proof.
  intros X s tk text lit er G NB H. destruct s as [|b t].
  { injection H as <- <- <- _. exists []. split; auto. constructor. }
  destruct NB as [|NB]; [congruence|]. cbn [hd] in NB.
  pose proof (good_nn _ _ G) as Hbb. unfold lexOne in H.
  destruct (isIdentifierStart b) eqn:EI.
  { split_some H. destruct (takeP isIdentifierBodyChar identChar (b :: t) identChar_b) as [F1 F2].
    pose proof (take_drop isIdentifierBodyChar (b :: t)) as TD. subst.
    exists (dropB isIdentifierBodyChar (b :: t)). split; auto.
    assert (T : takeB isIdentifierBodyChar (b :: t) = b :: takeB isIdentifierBodyChar t).
    { cbn [takeB]. unfold isIdentifierBodyChar at 1. now rewrite EI. }
    rewrite T in *. apply Lx_word; auto.
    - now apply identStart_b.
    - now inversion F1.
    - apply lookup_kind. symmetry. apply identTok_lookup. }
  destruct (isDigit b) eqn:ED.
  { destruct (lexNum X (b :: t)) as [tk' a] eqn:EN. split_some H. subst. apply lexNum_lexed; auto. now apply digit_b. }
  destruct (punct b) eqn:EP.
  { split_some H. subst. exists t. split; auto. destruct (punct_table _ _ EP) as [P1 P2]. apply Lx_punct; auto.
    intros E. injection E as ->. discriminate EP. }
  destruct (b =? 59) eqn:E59.
  { apply Z.eqb_eq in E59. split_some H. subst. exists (dropB notNl t). cbn [app]. rewrite take_drop. split; auto.
    assert (GT : bytesOk t) by (apply (good_tail 59 t) in G; [apply G|lia]).
    apply Lx_comment.
    - intros K. pose proof (takeB_all notNl t) as F. rewrite forallb_forall in F. apply F in K. discriminate K.
    - destruct (dropB notNl t) as [|c r] eqn:E; auto. right. pose proof (dropB_hd _ _ _ _ E) as K. cbn [hd].
      assert (0 <= c).
      { pose proof (take_drop notNl t) as TD. rewrite E in TD. unfold bytesOk in GT. rewrite <- TD, Forall_app in GT. destruct GT as [_ GT]. inversion GT; lia. }
      unfold notNl in K. rewrite andb_false_iff, negb_false_iff, Z.eqb_eq, Z.leb_gt in K. lia. }
  destruct (b =? 61) eqn:E61.
  { apply Z.eqb_eq in E61. subst b. destruct (hd 0 t =? 62) eqn:E62; split_some H; subst.
    - apply hd_cons in E62 as [t' ->]; [|lia]. exists t'. split; auto. apply Lx_punct; [simpl; auto 40| |discriminate].
      intros w' tk' u HI E. unfold punctTable in HI; simpl in HI; tab HI; injection HI as <- <-; simpl in *; first [lia | discriminate E].
    - apply Z.eqb_neq in E62. exists t. split; auto. apply Lx_punct; [simpl; auto 40| |discriminate].
      intros w' tk' u HI E. unfold punctTable in HI; simpl in HI; tab HI; injection HI as <- <-; simpl in *; first [lia | discriminate E | idtac].
      injection E as ->. cbn [hd] in E62. congruence. }
  destruct (b =? 47) eqn:E47.
  { apply Z.eqb_eq in E47. subst b. unfold lexSlash in H. destruct (hd 0 t =? 61) eqn:E1; [|destruct (hd 0 t =? 47) eqn:E2; [destruct (hd 0 (tl t) =? 61) eqn:E3|]];
      split_some H; subst.
    - apply hd_cons in E1 as [t' ->]; [|lia]. exists t'. split; auto. apply Lx_punct; [simpl; auto 40| |discriminate].
      intros w' tk' u HI E. unfold punctTable in HI; simpl in HI; tab HI; injection HI as <- <-; simpl in *; first [lia | discriminate E].
    - apply hd_cons in E2 as [t' ->]; [|lia]. cbn [tl] in E3. apply hd_cons in E3 as [t'' ->]; [|lia]. exists t''. split; auto. apply Lx_punct; [simpl; auto 40| |discriminate].
      intros w' tk' u HI E. unfold punctTable in HI; simpl in HI; tab HI; injection HI as <- <-; simpl in *; first [lia | discriminate E].
    - apply hd_cons in E2 as [t' ->]; [|lia]. cbn [tl] in E3. apply Z.eqb_neq in E3. exists t'. split; auto. apply Lx_punct; [simpl; auto 40| |discriminate].
      intros w' tk' u HI E. unfold punctTable in HI; simpl in HI; tab HI; injection HI as <- <-; simpl in *; first [lia | discriminate E | idtac].
      injection E as ->. cbn [hd] in E3. congruence.
    - apply Z.eqb_neq in E1, E2. exists t. split; auto. apply Lx_punct; [simpl; auto 40| |discriminate].
      intros w' tk' u HI E. unfold punctTable in HI; simpl in HI; tab HI; injection HI as <- <-; simpl in *; first [lia | discriminate E | idtac];
      injection E as ->; cbn [hd] in *; congruence. }
  destruct (b =? 46) eqn:E46.
  { apply Z.eqb_eq in E46. subst b. unfold lexDot in H. destruct (hd 0 t =? 46) eqn:E1; [destruct (hd 0 (tl t) =? 46) eqn:E2|destruct (uniIsLetter X (hdR t)) eqn:EL];
      split_some H; subst.
    - apply hd_cons in E1 as [t' ->]; [|lia]. cbn [tl] in E2. apply hd_cons in E2 as [t'' ->]; [|lia]. exists t''. split; auto. apply Lx_punct; [simpl; auto 40| |discriminate].
      intros w' tk' u HI E. unfold punctTable in HI; simpl in HI; tab HI; injection HI as <- <-; simpl in *; first [lia | discriminate E].
    - apply hd_cons in E1 as [t' ->]; [|lia]. cbn [tl] in E2. apply Z.eqb_neq in E2. exists t'. split; auto. apply Lx_punct; [simpl; auto 40| |discriminate].
      intros w' tk' u HI E. unfold punctTable in HI; simpl in HI; tab HI; injection HI as <- <-; simpl in *; first [lia | discriminate E | idtac].
      injection E as ->. cbn [hd] in E2. congruence.
    - exists (dropB isLetter t). cbn [app]. rewrite take_drop. split; auto. destruct (takeP isLetter letter t letter_b) as [F1 F2].
      pose proof (good_tail _ _ G ltac:(lia)) as Gt. assert (t <> []) by (intros ->; discriminate EL).
      destruct (good_rune _ Gt H) as (r & cs & t' & R). apply (Lx_dotted X _ _ r); auto.
      + rewrite take_drop. eapply rune_starts; eauto.
      + now rewrite <- (rune_hdR _ _ _ _ R).
      + now apply lookup_kind.
    - apply Z.eqb_neq in E1. exists t. split; auto. apply Lx_punct; [simpl; auto 40| |].
      + intros w' tk' u HI E. unfold punctTable in HI; simpl in HI; tab HI; injection HI as <- <-; simpl in *; first [lia | discriminate E | idtac];
        injection E as ->; cbn [hd] in *; congruence.
      + intros _ r K. apply starts_hdR in K. now subst r. }
  destruct (b =? 34) eqn:E34.
  { apply Z.eqb_eq in E34. subst b. pose proof (take_drop inStr t) as TD. destruct (take_inStr t) as [I1 I2].
    destruct (hd 0 (dropB inStr t) =? 34) eqn:EH.
    - split_some H. subst. apply hd_cons in EH as [t' EH]; [|lia]. exists t'. split.
      + rewrite <- TD at 1. rewrite EH. cbn [app]. rewrite <- app_assoc. reflexivity.
      + now apply Lx_text.
    - destruct (takeB inStr t) as [|a0 a] eqn:ET; [discriminate|]. split_some H. apply Z.eqb_neq in EH.
      exists (dropB inStr t). split.
      + rewrite <- E2. cbn [app]. f_equal. symmetry. exact TD.
      + assert (HL : a0 :: a = removelast (a0 :: a) ++ [last (a0 :: a) 0]) by (apply app_removelast_last; congruence).
        rewrite <- E1, <- E2, <- E3. rewrite HL at 1. apply Lx_open; rewrite <- ?HL; auto.
        apply drop_inStr; auto. apply (good_tail 34 t) in G; [apply G|lia]. }
  split_some H. destruct (good_rune _ G ltac:(congruence)) as (r & cs & t' & R). destruct (rune_cut _ _ _ _ R) as [_ C].
  rewrite C in E2, E3. subst text lit. exists t'. split; [apply (ru_split _ _ _ _ R)|]. subst tk.
  pose proof (ru_split _ _ _ _ R) as Hs. pose proof (ru_len _ _ _ _ R) as HL. destruct cs as [|c cs]; [simpl in HL; lia|].
  simpl in Hs. injection Hs as -> Hs. eapply Lx_illegal; eauto.
  - apply (ru_dec _ _ _ _ R).
  - intros K. apply identStart_b in K. congruence.
  - intros K. apply digit_b in K. congruence.
  - now apply Z.eqb_neq.
  - now apply Z.eqb_neq.
  - intros w tk K. unfold punctTable in K; simpl in K. tab K; injection K as <- <- <-; first [discriminate EP | discriminate E61 | discriminate E47 | discriminate E46].
Qed.

(** ** From the grammar to the suffix lexer *)

Lemma num_kind : forall X c w rest, digit c -> Num X (c :: w) rest -> (c = 48 -> forall P, ~ Base (hd 0 (w ++ rest)) P) ->
  Good ((c :: w) ++ rest) -> exists tk, lexOne X ((c :: w) ++ rest) = Some (tk, c :: w, c :: w, false) /\
    ((dotted (c :: w) rest /\ tk = FLOAT) \/ (~ dotted (c :: w) rest /\ tk = INT)).
Proof.
  intros X c w rest D HN HB G. destruct (num_numSuf X _ _ HN G (length ((c :: w) ++ rest)) INT (le_n _)) as [tk E].
  exists tk. cbn [app] in *. rewrite lexOne_digit by auto. rewrite lexNum_dec by (intros K; apply not_base; auto). rewrite E. split; auto.
  destruct (numSuf_num X _ _ _ _ _ G (le_n _) E) as (rest' & E' & _ & HT & HD & HD'). simpl in E'. injection E' as E'. apply app_inv_head in E'. subst rest'.
  destruct HT as [->| ->]; [right|left]; split; auto.
  - intros K. apply HD in K. discriminate.
  - apply HD'. discriminate.
Qed.

Lemma notNl_all : forall w, bytesOk w -> ~ In 10 w -> forallb notNl w = true.
Proof.
  intros w B N. apply forallb_forall. intros x Hx. unfold bytesOk in B. rewrite Forall_forall in B. apply B in Hx as Hx'.
  unfold notNl. rewrite andb_true_iff, negb_true_iff, Z.leb_le, Z.eqb_neq. split; [lia|]. intros ->. auto.
Qed.

Lemma inStr_all : forall w, bytesOk w -> ~ In 10 w -> ~ In 34 w -> forallb inStr w = true.
Proof.
  intros w B N N'. apply forallb_forall. intros x Hx. unfold bytesOk in B. rewrite Forall_forall in B. apply B in Hx as Hx'.
  unfold inStr. rewrite !andb_true_iff, !negb_true_iff, Z.leb_le, !Z.eqb_neq. repeat split; [lia| |]; intros ->; auto.
Qed.

Lemma nl_stops : forall (p : Z -> bool) rest, p 10 = false -> rest = [] \/ hd 0 rest = 10 -> p (hd 0 rest) = false \/ rest = [].
Proof. intros p rest H [->|E]; auto. left. now rewrite E. Qed.

Lemma longest_not : forall w rest w' tk', longest w rest -> In (w', tk') punctTable -> (length w < length w')%nat ->
  forall u, w ++ rest <> w' ++ u.
Proof. intros w rest w' tk' H HI HL u E. specialize (H _ _ _ HI E). lia. Qed.

Lemma lexed_lexOne : forall X tk text lit rest, Lexed X tk text lit rest -> Good (text ++ rest) ->
  exists er, lexOne X (text ++ rest) = Some (tk, text, lit, er).
Proof.
  intros X tk text lit rest H G. inversion H; subst; clear H.
  - exists false. reflexivity.
  - exists false. cbn [app]. rewrite word_lex.
    + f_equal. f_equal. f_equal. f_equal. now apply lookup_kind.
    + now apply identStart_b.
    + apply (forallb_P _ _ _ identChar_b). auto.
    + apply (stops_b _ _ _ identChar_b). auto.
  - exists false. cbn [app].
    match goal with K : Base _ _ |- _ => inversion K; subst end.
    + apply (base_lex X 120 w rest isHex); auto; [now apply (forallb_P _ _ _ hex_b)|now apply (stops_b _ _ _ hex_b)].
    + apply (base_lex X 98 w rest isBinary); auto; [now apply (forallb_P _ _ _ bin_b)|now apply (stops_b _ _ _ bin_b)].
    + apply (base_lex X 111 w rest isOctal); auto 6; [now apply (forallb_P _ _ _ oct_b)|now apply (stops_b _ _ _ oct_b)].
  - destruct (num_kind X c w rest) as (tk & E & [[K _]|[_ K]]); auto; [contradiction|]. subst. eauto.
  - destruct (num_kind X c w rest) as (tk & E & [[_ K]|[K _]]); auto; [|contradiction]. subst. eauto.
  - exists false.
    assert (NN : forall w' tk', In (w', tk') punctTable -> (length lit < length w')%nat -> forall u, lit ++ rest <> w' ++ u)
      by (intros; eapply longest_not; eauto).
    match goal with K : In _ punctTable |- _ => unfold punctTable in K; simpl in K; tab K; injection K as <- <- end; cbn [app] in *;
      try reflexivity.
    + (* = *) unfold lexOne. change (isIdentifierStart 61) with false. change (isDigit 61) with false. change (punct 61) with (@None token). cbn match.
      change (61 =? 59) with false. change (61 =? 61) with true. cbn match.
      destruct (hd 0 rest =? 62) eqn:E; auto. apply hd_cons in E as [u ->]; [|lia]. exfalso.
      eapply (NN (str "=>") ARROW_MAP); [vm_compute; auto 40|simpl; lia|reflexivity].
    + (* / *) change (lexOne X (47 :: rest)) with (let '(tk, a) := lexSlash rest in Some (tk, a, a, false)). unfold lexSlash.
      destruct (hd 0 rest =? 61) eqn:E1.
      { apply hd_cons in E1 as [u ->]; [|lia]. exfalso. eapply (NN (str "/=") TYPE_CHOICE_ASSIGN); [vm_compute; auto 40|simpl; lia|reflexivity]. }
      destruct (hd 0 rest =? 47) eqn:E2; auto.
      apply hd_cons in E2 as [u ->]; [|lia]. exfalso. eapply (NN (str "//") GROUP_CHOICE); [vm_compute; auto 40|simpl; lia|reflexivity].
    + (* // *) change (lexOne X (47 :: 47 :: rest)) with (let '(tk, a) := lexSlash (47 :: rest) in Some (tk, a, a, false)). unfold lexSlash. cbn [hd tl].
      change (47 =? 61) with false. change (47 =? 47) with true. cbn match.
      destruct (hd 0 rest =? 61) eqn:E1; auto.
      apply hd_cons in E1 as [u ->]; [|lia]. exfalso. eapply (NN (str "//=") GROUP_CHOICE_ASSIGN); [vm_compute; auto 40|simpl; lia|reflexivity].
    + (* . *) change (lexOne X (46 :: rest)) with (let '(tk, a) := lexDot X rest in Some (tk, a, a, false)). unfold lexDot.
      destruct (hd 0 rest =? 46) eqn:E1.
      { apply hd_cons in E1 as [u ->]; [|lia]. exfalso. eapply (NN (str "..") INCLUSIVE_BOUND); [vm_compute; auto 40|simpl; lia|reflexivity]. }
      destruct (uniIsLetter X (hdR rest)) eqn:EL; auto. exfalso.
      assert (Gr : Good rest) by (apply (good_tail 46); auto; lia). assert (rest <> []) by (intros ->; discriminate EL).
      destruct (good_rune _ Gr H) as (r & cs & t & R). rewrite (rune_hdR _ _ _ _ R) in EL.
      match goal with K : _ = _ -> forall r, _ -> uniIsLetter X r = false |- _ => rewrite (K eq_refl r) in EL by (eapply rune_starts; eauto) end. discriminate.
    + (* .. *) change (lexOne X (46 :: 46 :: rest)) with (let '(tk, a) := lexDot X (46 :: rest) in Some (tk, a, a, false)). unfold lexDot. cbn [hd tl].
      change (46 =? 46) with true. cbn match. destruct (hd 0 rest =? 46) eqn:E1; auto.
      apply hd_cons in E1 as [u ->]; [|lia]. exfalso. eapply (NN (str "...") EXCLUSIVE_BOUND); [vm_compute; auto 40|simpl; lia|reflexivity].
  - exists false. cbn [app]. change (lexOne X (46 :: w ++ rest)) with (let '(tk, a) := lexDot X (w ++ rest) in Some (tk, a, a, false)). unfold lexDot.
    match goal with K : startsWith _ _ |- _ => pose proof (starts_hdR _ _ K) as HR; destruct K as [KN _] end.
    assert (E : (hd 0 (w ++ rest) =? 46) = false).
    { destruct (w ++ rest) as [|c t] eqn:EW; [congruence|]. cbn [hd]. apply Z.eqb_neq. intros ->. unfold hdR in HR. rewrite decode_ascii in HR by lia.
      cbn [fst] in HR. subst r. match goal with K : uniIsLetter X 46 = true |- _ => discriminate K end. }
    rewrite E, HR. match goal with K : uniIsLetter X r = true |- _ => rewrite K end.
    destruct (take_stop isLetter w rest) as [T _]; [now apply (forallb_P _ _ _ letter_b)|now apply (stops_b _ _ _ letter_b)|].
    rewrite T. f_equal. f_equal. f_equal. f_equal. now apply lookup_kind.
  - exists false. cbn [app]. change (lexOne X (59 :: lit ++ rest)) with (Some (COMMENT, 59 :: takeB notNl (lit ++ rest), takeB notNl (lit ++ rest), false)).
    destruct (take_stop notNl lit rest) as [T _]; [|now apply nl_stops|now rewrite T].
    apply notNl_all; auto. destruct G as [B _]. inversion B as [|? ? _ B']; subst. apply Forall_app in B' as [B' _]. exact B'.
  - exists false. apply text_lex; auto. destruct G as [B _]. inversion B as [|? ? _ B']; subst. rewrite <- app_assoc in B'. apply Forall_app in B' as [B' _]. exact B'.
  - exists true. cbn [app]. rename rest into rs.
    assert (B1 : bytesOk (lit ++ [b])). { destruct G as [B _]. inversion B as [|? ? _ B']; subst. apply Forall_app in B' as [B' _]. exact B'. }
    destruct (take_stop inStr (lit ++ [b]) rs) as [T D]; [now apply inStr_all|now apply nl_stops|].
    change (lexOne X (34 :: (lit ++ [b]) ++ rs)) with
      (if hd 0 (dropB inStr ((lit ++ [b]) ++ rs)) =? 34
       then Some (TEXT_LITERAL, 34 :: takeB inStr ((lit ++ [b]) ++ rs) ++ [34], takeB inStr ((lit ++ [b]) ++ rs), false)
       else match takeB inStr ((lit ++ [b]) ++ rs) with
            | [] => None
            | _ => Some (TEXT_LITERAL, 34 :: takeB inStr ((lit ++ [b]) ++ rs), removelast (takeB inStr ((lit ++ [b]) ++ rs)), true)
            end).
    rewrite T, D. replace (hd 0 rs =? 34) with false by (symmetry; apply Z.eqb_neq; match goal with K : rs = [] \/ _ |- _ => destruct K as [-> | ->] end; simpl; lia).
    rewrite removelast_last. destruct (lit ++ [b]) eqn:E; [destruct lit; discriminate|reflexivity].
  - exists false. cbn [app]. rename c into c0. set (s := c0 :: t ++ rest) in *.
    assert (R : Rune s r (c0 :: t) rest) by (apply (rune_front (c0 :: t) rest r); auto; congruence).
    destruct (rune_cut _ _ _ _ R) as [_ C]. unfold s in *. unfold lexOne.
    destruct (isIdentifierStart c0) eqn:E1; [apply identStart_b in E1; contradiction|].
    destruct (isDigit c0) eqn:E2; [apply digit_b in E2; contradiction|].
    destruct (punct c0) as [tk|] eqn:E3; [exfalso; apply punct_table in E3 as [E3 _]; match goal with K : forall w tk, ~ _ |- _ => eapply K; eauto end|].
    match goal with K : c0 <> 34 |- _ => apply Z.eqb_neq in K; rewrite K end.
    match goal with K : c0 <> 59 |- _ => apply Z.eqb_neq in K; rewrite K end.
    assert (NP : forall k tk, In ([k], tk) punctTable -> (c0 =? k) = false).
    { intros k tk HI. apply Z.eqb_neq. intros ->. match goal with K : forall w tk, ~ _ |- _ => eapply K; eauto end. }
    rewrite (NP 61 ASSIGN), (NP 47 TYPE_CHOICE), (NP 46 PERIOD) by (vm_compute; auto 40). rewrite C. reflexivity.
Qed.

Lemma lexed_nonblank : forall X tk text lit rest, Lexed X tk text lit rest -> (text ++ rest = [] \/ ~ blank (hd 0 (text ++ rest))).
Proof.
  intros X tk text lit rest H. destruct H; auto; right; cbn [app hd]; unfold identStart, digit, blank in *; try lia.
  - match goal with K : In _ punctTable |- _ => unfold punctTable in K; simpl in K; tab K; injection K as <- <- end; cbn [app hd]; unfold blank; lia.
  - subst cs. auto.
Qed.

(** ** C66 *)

(** What is next is determined. *)
Theorem C66_unique : forall X s tk text lit rest tk' text' lit' rest', decodable s ->
  s = text ++ rest -> s = text' ++ rest' -> Lexed X tk text lit rest -> Lexed X tk' text' lit' rest' ->
  tk = tk' /\ text = text' /\ lit = lit' /\ rest = rest'.
Proof.
  intros X s tk text lit rest tk' text' lit' rest' G E E' H H'.
  destruct (lexed_lexOne X _ _ _ _ H) as [er K]; [now rewrite <- E|]. destruct (lexed_lexOne X _ _ _ _ H') as [er' K']; [now rewrite <- E'|].
  rewrite <- E in K. rewrite <- E' in K'. rewrite K in K'. injection K' as <- <- <- _. repeat split; auto. rewrite E in E'. now apply app_inv_head in E'.
Qed.

(** One decomposition of the rest of the source. *)
Definition nextIs (X : Ext) (s : bytes) (k : nat) (g : bytes) (tk : token) (text lit rest : bytes) : Prop :=
  skipn k s = g ++ text ++ rest /\ allBlank g /\ Lexed X tk text lit rest.

Lemma nextIs_drop : forall X s k g tk text lit rest, nextIs X s k g tk text lit rest ->
  takeB isSpace (skipn k s) = g /\ dropB isSpace (skipn k s) = text ++ rest.
Proof. intros X s k g tk text lit rest (H1 & H2 & H3). rewrite H1. apply blank_split; auto. eapply lexed_nonblank; eauto. Qed.

Lemma scan_full : forall X s l k, St s l k ->
  (scan X l = Panic /\ forall g tk text lit rest, ~ nextIs X s k g tk text lit rest) \/
  (exists g tk text lit rest l1, nextIs X s k g tk text lit rest /\ 
     scan X l = Ok (mkTok tk (posAt s (k + length g)) lit, l1) /\ St s l1 (k + length g + length text) /\
     (tk <> EOF -> text <> []) /\
     forall g' tk' text' lit' rest', nextIs X s k g' tk' text' lit' rest' -> g' = g /\ tk' = tk /\ text' = text /\ lit' = lit /\ rest' = rest).
Proof.
  intros X s l k HS.
  assert (G1 : Good (dropB isSpace (skipn k s))).
  { destruct HS as [A G L Hk]. destruct (skip_at s (loopFuel l) l _ _ A G (at_len _ _ _ _ A) L) as (l1 & _ & _ & G1 & _). exact G1. }
  destruct (scan_step_full X s l k HS) as [[B E]|(B & g & tk & text & lit & rest & l1 & er & H1 & H2 & H3 & H4 & H5 & H6 & _)].
  - left. split; auto. intros g tk text lit rest N. destruct (nextIs_drop _ _ _ _ _ _ _ _ N) as [_ D]. rewrite D in G1, B. destruct N as (_ & _ & N).
    destruct (lexed_lexOne X _ _ _ _ N G1) as [er K]. apply (lexOne_none X _ G1) in B. congruence.
  - right. exists g, tk, text, lit, rest, l1.
    assert (N : nextIs X s k g tk text lit rest).
    { split; auto. split; auto. destruct (lexOne_lexed X _ _ _ _ _ G1 (drop_nonblank _) H4) as (r' & E' & HX).
      assert (NBl : text ++ rest = [] \/ ~ blank (hd 0 (text ++ rest))).
      { destruct text as [|c text].
        - destruct H3 as [(_ & _ & -> & _)|(_ & N & _)]; [auto|congruence].
        - right. simpl in E'. pose proof (dropB_hd _ _ _ _ E') as K. cbn [app hd]. intros KB. apply isSpace_blank in KB. congruence. }
      destruct (blank_split g (text ++ rest) H2 NBl) as [_ D2]. rewrite H1, D2 in E'. apply app_inv_head in E'. now subst r'. }
    split; auto. split; auto. split; auto. split.
    + intros NE. destruct H3 as [(? & _)|(_ & ? & _)]; congruence.
    + intros g' tk' text' lit' rest' N'. destruct (nextIs_drop _ _ _ _ _ _ _ _ N) as [T D]. destruct (nextIs_drop _ _ _ _ _ _ _ _ N') as [T' D'].
      split; [congruence|]. destruct N as (_ & _ & N), N' as (_ & _ & N').
      assert (EE : text ++ rest = text' ++ rest') by congruence. rewrite D in G1.
      destruct (C66_unique X (text ++ rest) _ _ _ _ _ _ _ _ G1 eq_refl EE N N') as (-> & -> & -> & ->). auto.
Qed.

(** After any number of calls, the next call of Scan returns the token [t] exactly if
    [t] is next in the source according to the grammar. *)
Theorem C66_scan : forall X s n ts l, decodable s -> scans X n (newLexer s) = Ok (ts, l) ->
  exists k, covers s 0 ts k /\ forall t,
    (exists l', scan X l = Ok (t, l')) <->
    exists g text rest, skipn k s = g ++ text ++ rest /\ allBlank g /\ Lexed X (tTok t) text (tLit t) rest /\ tPos t = posAt s (k + length g).
Proof.
  intros X s n ts l D H. destruct (scans_new X s n ts l D H) as (k & HC & HS). exists k. split; auto. intros t.
  destruct (scan_full X s l k HS) as [[E N]|(g & tk & text & lit & rest & l1 & N & E & _ & _ & U)]; rewrite E; split.
  - intros (l' & K); discriminate.
  - intros (g & text & rest & K1 & K2 & K3 & _). exfalso. eapply N; split; eauto.
  - intros (l' & K). injection K as <- _. destruct N as (N1 & N2 & N3). exists g, text, rest. auto.
  - intros (g' & text' & rest' & K1 & K2 & K3 & K4). exists l1. destruct t as [a b c]; cbn [tTok tLit tPos] in *.
    destruct (U g' a text' c rest') as (-> & -> & -> & -> & ->); [split; auto|]. now subst b.
Qed.

(** Scan crashes exactly where the grammar has no next token. *)
Theorem C66_crash : forall X s n ts l, decodable s -> scans X n (newLexer s) = Ok (ts, l) ->
  exists k, covers s 0 ts k /\ 
    (scan X l = Panic <-> ~ exists g tk text lit rest, skipn k s = g ++ text ++ rest /\ allBlank g /\ Lexed X tk text lit rest).
Proof.
  intros X s n ts l D H. destruct (scans_new X s n ts l D H) as (k & HC & HS). exists k. split; auto.
  destruct (scan_full X s l k HS) as [[E N]|(g & tk & text & lit & rest & l1 & N & E & _)]; rewrite E; split; try easy.
  - intros _ (g & tk & text & lit & rest & K). exact (N g tk text lit rest K).
  - intros K. exfalso. apply K. exists g, tk, text, lit, rest. exact N.
Qed.

Lemma lexed_eof : forall X text lit rest, Lexed X EOF text lit rest -> text = [] /\ lit = [] /\ rest = [].
Proof.
  intros X text lit rest H. inversion H; subst; auto; exfalso.
  - match goal with K : kindOf _ _ |- _ => apply lookup_kind in K; apply (lookup_ne _ EOF) in K; simpl; auto end.
  - match goal with K : In _ punctTable |- _ => unfold punctTable in K; simpl in K; tab K; discriminate K end.
  - match goal with K : kindOf _ _ |- _ => apply lookup_kind in K; apply (lookup_ne _ EOF) in K; simpl; auto end.
Qed.

Lemma tokensOf_iff : forall X s n l k, St s l k -> (length (skipn k s) < n)%nat -> forall ts,
  scanLoop X n l = Ok ts <-> TokensOf X s k ts.
Proof.
  intros X s. induction n; intros l k HS Hn ts; [lia|]. simpl scanLoop.
  assert (EN : forall g, skipn k s = g -> allBlank g -> nextIs X s k g EOF [] [] []).
  { intros g E B. split; [now rewrite !app_nil_r|]. split; auto. constructor. }
  destruct (scan_full X s l k HS) as [[E N]|(g & tk & text & lit & rest & l1 & N & E & HS1 & NT & U)]; rewrite E; cbn [rbind tTok].
  - split; [discriminate|]. intros K. exfalso. inversion K; subst; [eapply N; now apply EN|eapply N; split; eauto].
  - unfold teq. destruct (token_eq_dec tk EOF) as [->|NE].
    + split.
      * intros K. injection K as <-. destruct N as (N1 & N2 & N3). destruct (lexed_eof _ _ _ _ N3) as (-> & -> & ->).
        rewrite !app_nil_r in N1. now apply To_eof.
      * intros K. inversion K; subst.
        -- destruct (U _ _ _ _ _ (EN _ eq_refl H0)) as (<- & _ & <- & <- & <-). reflexivity.
        -- exfalso. destruct (U g0 tk text0 lit0 rest0) as (_ & K' & _); [split; auto|congruence].
    + specialize (NT NE). destruct N as (N1 & N2 & N3).
      assert (HL : (length (skipn (k + length g + length text) s) < n)%nat).
      { assert (LL : length (skipn k s) = (length g + (length text + length rest))%nat) by (rewrite N1, !app_length; auto).
        rewrite skipn_length in *. destruct text; [congruence|]. simpl in *. lia. }
      specialize (IHn l1 _ HS1 HL). split.
      * destruct (scanLoop X n l1) as [ts'| | |] eqn:ES; cbn [rbind]; try discriminate. intros K. injection K as <-.
        eapply To_cons; eauto. now apply IHn.
      * intros K. inversion K; subst.
        -- exfalso. destruct (U _ _ _ _ _ (EN _ eq_refl H0)) as (_ & K' & _). congruence.
        -- destruct (U g0 tk0 text0 lit0 rest0) as (-> & -> & -> & -> & ->); [split; auto|].
           match goal with Q : TokensOf _ _ _ ?x |- _ => apply (proj2 (IHn x)) in Q; rewrite Q end. reflexivity.
Qed.

(** All of Scan's results up to EOF are exactly what the grammar says. *)
Theorem C66_tokens : forall X s ts, decodable s -> (scanAll X (S (length s)) s = Ok ts <-> TokensOf X s 0 ts).
Proof.
  intros X s ts D. unfold scanAll. apply (tokensOf_iff X s); [now apply newLexer_st|]. rewrite skipn_O. lia.
Qed.

(** Malformed numbers and lonely dots: a dot after a number makes it a float even if it is
    not part of it, dots may repeat, and a control operator without letters is an identifier. *)
Example C66_ex : forall f, f = (fun s => match scanAll X0 10 s with Ok ts => map (fun t => (tTok t, tLit t)) ts | _ => [] end) ->
  f (str "1.a") = [(FLOAT, str "1"); (IDENT, str ".a"); (EOF, [])] /\
  f (str "1.2.3") = [(FLOAT, str "1.2.3"); (EOF, [])] /\
  f (str "12ab 1..2") = [(INT, str "12"); (IDENT, str "ab"); (INT, str "1"); (INCLUSIVE_BOUND, str ".."); (INT, str "2"); (EOF, [])] /\
  f (str "0x 0xg") = [(INT, str "0x"); (INT, str "0x"); (IDENT, str "g"); (EOF, [])].
Proof. intros f ->. repeat split; vm_compute; reflexivity. Qed.

(** The grammar on one of them. *)
Example C66_ex_lexed : decodable (str "1.a") /\ Lexed X0 FLOAT (str "1") (str "1") (str ".a") /\ Lexed X0 IDENT (str ".a") (str ".a") [].
Proof.
  split; [apply good_by_ascii; vm_compute; reflexivity|]. split.
  - apply (Lx_float X0 49 [] (str ".a")).
    + unfold digit. lia.
    + apply (Nm_digit X0 49 [49] [] (str ".a")); [discriminate|vm_compute; reflexivity|reflexivity|].
      constructor. intros [(r & [_ (w & E)] & K)|(d & t & E & K)].
      * vm_compute in E. injection E as <- _. discriminate K.
      * vm_compute in E. injection E as <- _. unfold digit in K. lia.
    + discriminate.
    + exists [49], [], (str "a"). repeat split; discriminate.
  - apply (Lx_dotted X0 (str "a") IDENT 97); auto.
    + split; [discriminate|]. eexists. vm_compute. reflexivity.
    + apply Forall_cons; [right; vm_compute; split; discriminate|apply Forall_nil].
    + now left.
    + apply lookup_kind. vm_compute. reflexivity.
Qed.
