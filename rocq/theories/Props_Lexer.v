(** Properties C01-C13: lexer, tokens, the caller's buffer. *)
From Coq Require Import String.
From Verif Require Import Base Utf8 Token Ext Lexer LexSpec LexSpec2 LexerProofs LexOne LexSeq LexHang LexWords
  SliceModel SliceProofs.
Open Scope string_scope.
Open Scope list_scope.
Open Scope Z_scope.

(** An instance of the external behaviour for the examples. *)
Definition X0 : Ext := mkExt (fun _ => false) (fun _ => false) (fun _ => None).

Definition sample : bytes := str "thing = { ; a comment" ++ [10] ++ str "  age: 0..120, name : tstr }".

Lemma good_by_ascii : forall s, forallb (fun c => (0 <=? c) && (c <? 128)) s = true -> decodable s.
Proof.
  intros s H. apply good_ascii. rewrite forallb_forall in H. apply Forall_forall. intros x Hx.
  apply H in Hx. rewrite andb_true_iff, Z.leb_le, Z.ltb_lt in Hx. lia.
Qed.

Example sample_decodable : decodable sample.
Proof. apply good_by_ascii. vm_compute. reflexivity. Qed.

(** A source with two-, three- and four-byte characters: "é€😀". *)
Definition sampleWide : bytes := [34; 195; 169; 226; 130; 172; 240; 159; 152; 128; 34].
Example sampleWide_decodable : decodable sampleWide.
Proof.
  split; [repeat constructor; lia|].
  repeat (eapply Dec_rune; [discriminate|reflexivity|discriminate|simpl]); constructor.
Qed.

(** ** C01 *)

Theorem C01_decodable_reaches_eof : forall X s, decodable s ->
  scanAll X (S (length s)) s = Panic \/ exists ts, scanAll X (S (length s)) s = Ok ts.
Proof.
  intros X s D. apply (scanLoop_ends X s _ _ 0); [apply newLexer_st; auto|]. simpl. lia.
Qed.

Theorem C01_eof_only_if_decodable : forall X s, bytesOk s -> ~ decodable s ->
  (forall n ts, scanAll X n s <> Ok ts) /\
  (forall n ts l, scans X n (newLexer s) = Ok (ts, l) -> Forall (fun t => tTok t <> EOF) ts).
Proof.
  intros X s B D. assert (U : UndOk (s ++ [32]) (newLexer s)).
  { apply newLexer_und; auto. intros HD. apply D. split; auto. }
  split.
  - intros n ts. eapply scanLoop_undok; eauto.
  - intros n ts l H. apply (scans_undok _ X n _ _ _ U H).
Qed.

(** The outcome [Hang] of the model stands for a loop of the Go program that
    does not end: in every lexer state that Scan can be in, no number of
    iterations finishes a loop whose fuel ran out. *)
Theorem C01_hang_is_divergence : forall X l, 0 <= rdOffset l <= Z.of_nat (length (src l)) ->
  (skipWhitespace (loopFuel l) l = Hang -> forall m, skipWhitespace m l = Hang) /\
  (forall cond, cond (-1) = false -> loopNext cond (loopFuel l) l = Hang -> forall m, loopNext cond m l = Hang) /\
  (forall tok, numberLoop X (loopFuel l) tok l = Hang -> forall m, numberLoop X m tok l = Hang) /\
  (stringLoop (loopFuel l) l = Hang -> forall m, stringLoop m l = Hang).
Proof.
  intros X l W. split; [apply skipWhitespace_hang; auto|].
  split; [intros; apply loopNext_hang; auto|].
  split; [intros; apply numberLoop_hang; auto|apply stringLoop_hang; auto].
Qed.

Example C01_ex1 : exists ts, scanAll X0 (S (length sample)) sample = Ok ts /\ length ts = 15%nat.
Proof. eexists. split; [vm_compute; reflexivity|reflexivity]. Qed.
Lemma dec_tail : forall b t, b < 128 -> Dec (b :: t) -> Dec t.
Proof.
  intros b t L H. inversion H as [|? r w ? E N H']; subst. rewrite decode_ascii in E by auto.
  injection E as <- <-. exact H'.
Qed.

Example C01_ex2 : bytesOk (str "a = " ++ [255]) /\ ~ decodable (str "a = " ++ [255]).
Proof.
  split; [vm_compute; repeat constructor; discriminate|].
  intros [_ H]. cbn in H. do 4 (apply dec_tail in H; [|lia]).
  inversion H as [|? r w ? E N H']; subst. injection E as <- <-. apply N; reflexivity.
Qed.
Example C01_ex3 : scanAll X0 9 (str "a " ++ [255]) = Hang.
Proof. vm_compute. reflexivity. Qed.

(** ** C02, C03, C04: positions, tiling, literals *)

Theorem C03_tokens_tile_source : forall X s n ts l, decodable s ->
  scans X n (newLexer s) = Ok (ts, l) -> exists k, covers s 0 ts k.
Proof. intros. destruct (scans_new X s n ts l) as (k & H1 & _); eauto. Qed.

(** All tokens up to EOF cover the source to its last byte. *)
Theorem C03_tokens_tile_whole_source : forall X s n ts, decodable s ->
  scanAll X n s = Ok ts -> covers s 0 ts (length s).
Proof.
  intros X s n ts D. unfold scanAll. assert (HS := newLexer_st s D).
  revert ts HS. generalize (newLexer s) as l, 0%nat as k.
  induction n; intros l k ts HS H; simpl in H; [discriminate|].
  destruct (scan_step_full X s l k HS) as [[_ E]|(_ & g & tk & text & lit & rest & l1 & er & H1 & H2 & H3 & _ & H5 & H6 & _)].
  - rewrite E in H. discriminate.
  - rewrite H5 in H. cbn [rbind tTok] in H. unfold teq in H. destruct (token_eq_dec tk EOF) as [->|NE].
    + inversion H; subst. econstructor; eauto. 
      destruct H3 as [(_ & -> & -> & _)|[? _]]; [|congruence]. simpl app in H1. rewrite app_nil_r in H1.
      pose proof (f_equal (@length Z) H1) as HL. rewrite skipn_length in HL. pose proof (st_le _ _ _ HS).
      replace (k + length g + length (@nil Z))%nat with (length s) by (simpl; lia). apply cov_nil.
    + destruct (scanLoop X n l1) as [ts'| | |] eqn:E; cbn [rbind] in H; try discriminate. inversion H; subst.
      econstructor; eauto.
Qed.

Lemma covers_in : forall s k ts k' t, covers s k ts k' -> In t ts ->
  exists i text rest, skipn i s = text ++ rest /\ tPos t = posAt s i /\ tokText (tTok t) text rest (tLit t).
Proof.
  intros s k ts k' t H. induction H as [|k g text rest t0 ts k' H1 H2 H3 H4 H5 IH]; intros HI; [contradiction|].
  destruct HI as [<-|HI]; auto. exists (k + length g)%nat, text, rest.
  split; [|split; auto]. apply (firstn_add s k g (text ++ rest) H1).
Qed.

Theorem C02_positions_exact : forall X s n ts l t, decodable s ->
  scans X n (newLexer s) = Ok (ts, l) -> In t ts ->
  exists i text rest, s = firstn i s ++ text ++ rest /\ tokText (tTok t) text rest (tLit t) /\
    tPos t = mkPos [] (Z.of_nat i) (1 + newlines (firstn i s)) (1 + sinceNewline (firstn i s) 0).
Proof.
  intros X s n ts l t D H HI. destruct (scans_new X s n ts l D H) as (k & HC & _).
  destruct (covers_in _ _ _ _ _ HC HI) as (i & text & rest & H1 & H2 & H3).
  exists i, text, rest. split; [now rewrite <- H1, firstn_skipn|]. split; auto.
Qed.

Theorem C04_literal_is_text : forall X s n ts l t, decodable s ->
  scans X n (newLexer s) = Ok (ts, l) -> In t ts ->
  (tTok t = EOF /\ tLit t = []) \/
  exists i text rest, skipn i s = text ++ rest /\ tPos t = posAt s i /\ text <> [] /\
    litOf (tTok t) text rest (tLit t).
Proof.
  intros X s n ts l t D H HI. destruct (scans_new X s n ts l D H) as (k & HC & _).
  destruct (covers_in _ _ _ _ _ HC HI) as (i & text & rest & H1 & H2 & [(? & _ & _ & ?)|(_ & ? & _ & ?)]); eauto 10.
Qed.

Example C02_ex : exists ts l t, scans X0 7 (newLexer sample) = Ok (ts, l) /\ In t ts /\
  t = mkTok INT (mkPos [] 29 2 8) (str "0").
Proof. do 3 eexists. split; [vm_compute; reflexivity|]. split; [do 6 right; left; reflexivity|reflexivity]. Qed.

(** ** C05 *)

Theorem C05_eof_sticky : forall X s n ts l t, bytesOk s ->
  scans X n (newLexer s) = Ok (ts, l) -> In t ts -> tTok t = EOF ->
  t = mkTok EOF (posAt s (length s)) [] /\
  forall m, exists l', scans X m l = Ok (repeat t m, l') /\ errors l' = errors l /\ errCount l' = errCount l.
Proof.
  intros X s n ts l t B H HI HE.
  assert (ND : ~ Dec s -> False).
  { intros D. apply (scans_undok _ X n _ _ _ (newLexer_und s B D)) in H as [_ F].
    rewrite Forall_forall in F. apply (F t HI HE). }
  assert (End : forall m l, St s l (length s) -> exists l', scans X m l = 
     Ok (repeat (mkTok EOF (posAt s (length s)) []) m, l') /\ errors l' = errors l /\ errCount l' = errCount l).
  { induction m; intros l0 HS; [simpl; eauto|].
    pose proof (scan_step X s l0 (length s) HS) as Q. cbn zeta in Q. rewrite skipn_all in Q. cbn [takeB dropB lexOne] in Q.
    destruct Q as (l1 & rest & Q1 & Q2 & Q3 & Q4 & Q5 & Q6). change (length (@nil Z)) with 0%nat in *. rewrite !Nat.add_0_r in Q3. rewrite !Nat.add_0_r in Q4.
    destruct (IHm l1 Q4) as (l2 & R1 & R2 & R3). exists l2. simpl. rewrite Q3. cbn [rbind]. rewrite R1. cbn [rbind].
    split; auto. rewrite app_nil_r in Q5. split; [congruence|lia]. }
  (* decodability is decidable enough: run the invariant along the scans *)
  assert (Main : Dec s -> t = mkTok EOF (posAt s (length s)) [] /\ St s l (length s)).
  { intros D. assert (HS := newLexer_st s (conj B D)). revert H HS HI. generalize (newLexer s) as l0, 0%nat as k, ts.
    induction n; intros l0 k ts0 H HS HI; simpl in H; [inversion H; subst; contradiction|].
    destruct (scan_step_full X s l0 k HS) as [[_ E]|(_ & g & tk & text & lit & rest & l1 & er & H1 & H2 & H3 & _ & H5 & H6 & _)].
    - rewrite E in H. discriminate.
    - rewrite H5 in H. cbn [rbind] in H. destruct (scans X n l1) as [[ts1 l2]| | |] eqn:E; cbn [rbind] in H; try discriminate.
      inversion H; subst. destruct HI as [HI|HI]; [|eapply IHn; eauto].
      subst t. simpl in HE. subst tk. destruct H3 as [(_ & -> & -> & ->)|[? _]]; [|congruence].
      simpl app in H1. rewrite app_nil_r in H1.
      assert (HK : (k + length g = length s)%nat).
      { pose proof (f_equal (@length Z) H1) as HL. rewrite skipn_length in HL. pose proof (st_le _ _ _ HS). lia. }
      rewrite HK in *. split; auto. simpl length in H6. rewrite Nat.add_0_r in H6.
      assert (Q : forall n l1 ts1 l2, St s l1 (length s) -> scans X n l1 = Ok (ts1, l2) -> St s l2 (length s)).
      { clear. intros n l1 ts1 l2 HS H. destruct (scans_st X s n l1 _ _ _ HS H) as (k' & _ & S & L).
        pose proof (st_le _ _ _ S). replace (length s) with k' by lia. exact S. }
      eapply Q; eauto. }
  destruct (Dec_em s) as [D|D]; [|exfalso; auto].
  destruct (Main D) as [-> HS]. split; auto.
Qed.
Example C05_ex : exists ts l t, scans X0 3 (newLexer (str "a ")) = Ok (ts, l) /\ In t ts /\ tTok t = EOF.
Proof. do 3 eexists. split; [vm_compute; reflexivity|]. split; [right; left; reflexivity|reflexivity]. Qed.

(** ** C06 *)

Theorem C06_spaced_lexemes : forall X s items, spaced s items ->
  forall n, (length items < n)%nat -> scanAll X n s = Ok (expected s 0 items).
Proof.
  intros X s items H n Hn. apply spaced_scan; auto. apply newLexer_st. eapply spaced_good; eauto.
Qed.

(** No lexer error is recorded along the way. *)
Theorem C06_spaced_no_errors : forall X s items n ts l, spaced s items ->
  scans X n (newLexer s) = Ok (ts, l) -> errors l = [] /\ errCount l = 0.
Proof.
  intros X s items n ts l HSp H. pose proof (spaced_good _ _ HSp) as G.
  destruct (newLexer_at s G) as (_ & E1 & E2 & _). rewrite <- E1, <- E2. clear E1 E2.
  assert (HS := newLexer_st s G). change s with (skipn 0 s) in HSp. revert H HS HSp.
  generalize (newLexer s) as l0, 0%nat as k, items, ts.
  induction n; intros l0 k its ts0 H HS HSp; simpl in H; [inversion H; subst; auto|].
  assert (Q : exists its' l1 t k', scan X l0 = Ok (t, l1) /\ errors l1 = errors l0 /\ errCount l1 = errCount l0 /\
     St s l1 k' /\ spaced (skipn k' s) its').
  { pose proof (scan_step X s l0 k HS) as HStep. cbn zeta in HStep. inversion HSp as [w Hw|g tk text lit rest its' Hg Hl He Hr E0]; subst.
    - destruct (blank_end _ Hw) as [T D]. rewrite D, T in HStep. cbn [lexOne] in HStep.
      destruct HStep as (l' & rest & Q1 & Q2 & Q3 & Q4 & Q5 & Q6).
      rewrite app_nil_r in Q5. rewrite Z.add_0_r in Q6.
      exists [], l', (mkTok EOF (posAt s (k + length (skipn k s))) []), (k + length (skipn k s) + length (@nil Z))%nat.
      split; [exact Q3|]. split; [auto|]. split; [auto|]. split; [auto|]. rewrite skipn_all2; [constructor; constructor|].
      rewrite skipn_length. simpl. lia.
    - pose proof (spaced_good _ _ Hr) as GR.
      destruct (lexeme_lex X _ _ _ _ Hl He GR) as (L1 & L2 & L3).
      destruct (blank_split g (text ++ rest) Hg) as [T D].
      { right. destruct text; [congruence|]. simpl in *. auto. }
      rewrite <- E0 in HStep. rewrite T, D, L1 in HStep. rewrite E0 in HStep.
      destruct HStep as (l' & rest' & Q1 & Q2 & Q3 & Q4 & Q5 & Q6).
      rewrite app_nil_r in Q5. rewrite Z.add_0_r in Q6.
      assert (Q7 : skipn (k + length g + length text) s = rest).
      { symmetry in E0. assert (H0' : skipn k s = (g ++ text) ++ rest) by (rewrite <- app_assoc; auto).
        destruct (firstn_add s k _ _ H0') as [_ F]. rewrite app_length, Nat.add_assoc in F. exact F. }
      exists its', l'. do 2 eexists. split; [exact Q3|]. split; [auto|]. split; [auto|]. split; [exact Q4|].
      rewrite Q7. auto. }
  destruct Q as (its' & l1 & t & k' & Q1 & Q2 & Q3 & Q4 & Q5). rewrite Q1 in H. cbn [rbind] in H.
  destruct (scans X n l1) as [[ts1 l2]| | |] eqn:E; cbn [rbind] in H; try discriminate. inversion H; subst.
  rewrite <- Q2, <- Q3. eapply IHn; eauto.
Qed.

Example C06_ex : spaced (str "a.b-1 = [ 0x1F 2.50 ] .size ""x y"" ;c" ++ [10; 9] ++ str "uint ")
  [ ([], IDENT, str "a.b-1", str "a.b-1"); ([32], ASSIGN, str "=", str "="); ([32], LBRACK, str "[", str "[");
    ([32], INT, str "0x1F", str "0x1F"); ([32], FLOAT, str "2.50", str "2.50"); ([32], RBRACK, str "]", str "]");
    ([32], SIZE, str ".size", str ".size"); ([32], TEXT_LITERAL, str """x y""", str "x y");
    ([32], COMMENT, str ";c", str "c"); ([10; 9], UINT, str "uint", str "uint") ].
Proof.
  assert (E : forall s g tk text lit rest its, s = g ++ text ++ rest -> allBlank g -> lexeme tk text lit -> ends tk rest ->
    spaced rest its -> spaced s ((g, tk, text, lit) :: its)) by (intros; subst; constructor; auto).
  assert (B : forall c r tk, blank c -> tk <> COMMENT -> ends tk (c :: r)).
  { intros c r tk Hc Ht. right. exists c, r. split; auto. split; auto. congruence. }
  assert (K : forall w, (forall t, ~ In (w, t) keywordTable) -> kindOf w IDENT) by (intros w Hw; right; split; auto).
  eapply (E _ [] IDENT (str "a.b-1")); [reflexivity|constructor| |apply B; [left; reflexivity|discriminate]|].
  { apply (lx_word 97 (str ".b-1")); [right; left; lia|repeat (constructor; [unfold identChar, identStart; simpl; lia|]); constructor|].
    apply K. intros t Ht. unfold keywordTable in Ht. simpl in Ht.
    repeat (destruct Ht as [Ht|Ht]; [discriminate|]). exact Ht. }
  eapply (E _ [32] ASSIGN (str "=")); [reflexivity|repeat constructor|apply lx_punct; simpl; tauto|apply B; [left; reflexivity|discriminate]|].
  eapply (E _ [32] LBRACK (str "[")); [reflexivity|repeat constructor|apply lx_punct; simpl; tauto|apply B; [left; reflexivity|discriminate]|].
  eapply (E _ [32] INT (str "0x1F")); [reflexivity|repeat constructor| |apply B; [left; reflexivity|discriminate]|].
  { apply lx_hex. repeat (constructor; [unfold hexDigit, digit; simpl; lia|]). constructor. }
  eapply (E _ [32] FLOAT (str "2.50")); [reflexivity|repeat constructor| |apply B; [left; reflexivity|discriminate]|].
  { apply (lx_float (str "2") (str "50")); try discriminate; repeat (constructor; [unfold digit; simpl; lia|]); constructor. }
  eapply (E _ [32] RBRACK (str "]")); [reflexivity|repeat constructor|apply lx_punct; simpl; tauto|apply B; [left; reflexivity|discriminate]|].
  eapply (E _ [32] SIZE (str ".size")); [reflexivity|repeat constructor| |apply B; [left; reflexivity|discriminate]|].
  { apply (lx_dotted (str "size")); [discriminate|repeat (constructor; [unfold letter; simpl; lia|]); constructor|].
    left. unfold keywordTable; simpl; tauto. }
  eapply (E _ [32] TEXT_LITERAL (str """x y""")); [reflexivity|repeat constructor| |apply B; [left; reflexivity|discriminate]|].
  { apply (lx_text (str "x y")); [apply good_by_ascii; reflexivity| |]; simpl; lia. }
  eapply (E _ [32] COMMENT (str ";c")); [reflexivity|repeat constructor| | |].
  { apply (lx_comment (str "c")); [apply good_by_ascii; reflexivity|simpl; lia]. }
  { right. do 2 eexists. split; [reflexivity|]. split; [unfold blank; auto|auto]. }
  eapply (E _ [10; 9] UINT (str "uint")); [reflexivity|repeat constructor; unfold blank; lia| |apply B; [left; reflexivity|discriminate]|].
  { apply (lx_word 117 (str "int")); [right; left; lia|repeat (constructor; [unfold identChar, identStart; simpl; lia|]); constructor|].
    left. unfold keywordTable; simpl; tauto. }
  constructor. repeat constructor.
Qed.

(** ** C07, C09: words and numbers are maximal *)

(** In every state reached by [n] calls of Scan the next token is found at the
    first non-blank byte after the text covered so far. *)
Lemma scan_next : forall X s l k g suf tk text lit, St s l k ->
  skipn k s = g ++ suf -> allBlank g -> (suf = [] \/ ~ blank (hd 0 suf)) ->
  lexOne X suf = Some (tk, text, lit, false) ->
  exists l', scan X l = Ok (mkTok tk (posAt s (k + length g)) lit, l').
Proof.
  intros X s l k g suf tk text lit HS H1 H2 H3 H4.
  pose proof (scan_step X s l k HS) as Q. cbn zeta in Q. rewrite H1 in Q.
  destruct (blank_split g suf H2 H3) as [T D]. rewrite T, D, H4 in Q.
  destruct Q as (l' & rest & _ & _ & Q & _). eauto.
Qed.

Lemma st_suffix_good : forall s l k g suf, St s l k -> skipn k s = g ++ suf -> allBlank g -> Good suf.
Proof.
  intros s l k g suf [A G _ _] H1 H2. rewrite H1 in G. revert H2 G. clear. induction g; intros HB G; auto.
  inversion HB; subst. apply IHg; auto. apply (good_tail a); auto. unfold blank in *; lia.
Qed.

Theorem C07_words_maximal : forall X s n ts l, decodable s -> scans X n (newLexer s) = Ok (ts, l) ->
  exists k, covers s 0 ts k /\
  forall g c w rest tk, skipn k s = g ++ (c :: w) ++ rest -> allBlank g ->
    identStart c -> Forall identChar w -> (rest = [] \/ ~ identChar (hd 0 rest)) -> kindOf (c :: w) tk ->
    exists l', scan X l = Ok (mkTok tk (posAt s (k + length g)) (c :: w), l').
Proof.
  intros X s n ts l D H. destruct (scans_new X s n ts l D H) as (k & HC & HS).
  exists k. split; auto. intros g c w rest tk E Hg Hc Hw Hr Hk.
  eapply scan_next; eauto.
  - right. simpl. unfold blank, identStart in *. lia.
  - simpl app. rewrite word_lex with (rest := rest).
    + apply lookup_kind in Hk. subst tk. reflexivity.
    + apply identStart_b; auto.
    + apply (forallb_P _ _ _ identChar_b); auto.
    + destruct Hr as [Hr|Hr]; auto. left. destruct (isIdentifierBodyChar (hd 0 rest)) eqn:E2; auto.
      apply identChar_b in E2. tauto.
Qed.

(** Where a decimal numeral ends: at the end of the source, or before an ASCII
    byte that is not a digit and is not a lone dot (".." may follow). *)
Definition numeralEnds (rest : bytes) : Prop :=
  rest = [] \/ (hd 0 rest < 128 /\ ~ digit (hd 0 rest) /\ (hd 0 rest = 46 -> hd 0 (tl rest) = 46)).

Lemma numeralEnds_stop : forall X rest, numeralEnds rest -> numStop X rest.
Proof.
  intros X rest [H|(H1 & H2 & H3)]; [left; auto|right]. split; auto. split.
  - destruct (isDigit (hd 0 rest)) eqn:E; auto. apply digit_b in E. tauto.
  - intros E. specialize (H3 E). destruct (tl rest); simpl in *; [discriminate|auto].
Qed.

Theorem C09_numbers : forall X s n ts l, decodable s -> scans X n (newLexer s) = Ok (ts, l) ->
  exists k, covers s 0 ts k /\
  forall g num rest tk, skipn k s = g ++ num ++ rest -> allBlank g ->
    (tk = INT /\ num <> [] /\ Forall digit num /\ numeralEnds rest /\
       (num = [48] -> rest = [] \/ (hd 0 rest <> 120 /\ hd 0 rest <> 98 /\ hd 0 rest <> 111))) \/
    (tk = FLOAT /\ (exists a b, num = a ++ 46 :: b /\ a <> [] /\ b <> [] /\ Forall digit a /\ Forall digit b) /\
       numeralEnds rest) \/
    (tk = INT /\ (exists w, num = 48 :: 120 :: w /\ Forall hexDigit w) /\ (rest = [] \/ ~ hexDigit (hd 0 rest))) \/
    (tk = INT /\ (exists w, num = 48 :: 98 :: w /\ Forall binDigit w) /\ (rest = [] \/ ~ binDigit (hd 0 rest))) \/
    (tk = INT /\ (exists w, num = 48 :: 111 :: w /\ Forall octDigit w) /\ (rest = [] \/ ~ octDigit (hd 0 rest))) ->
    exists l', scan X l = Ok (mkTok tk (posAt s (k + length g)) num, l').
Proof.
  intros X s n ts l D H. destruct (scans_new X s n ts l D H) as (k & HC & HS).
  exists k. split; auto. intros g num rest tk E Hg HN.
  pose proof (st_suffix_good _ _ _ _ _ HS E Hg) as G.
  assert (SB : forall (p : Z -> bool) (P : Z -> Prop), (forall c, p c = true <-> P c) ->
     (rest = [] \/ ~ P (hd 0 rest)) -> p (hd 0 rest) = false \/ rest = []).
  { intros p P HP [Hr|Hr]; auto. left. destruct (p (hd 0 rest)) eqn:E2; auto. apply HP in E2. tauto. }
  destruct HN as [(-> & H1 & H2 & H3 & H4)|[(-> & (a & b & -> & H1 & H2 & H3 & H4) & H5)|[(-> & (w & -> & H1) & H2)|[(-> & (w & -> & H1) & H2)|(-> & (w & -> & H1) & H2)]]]].
  - eapply scan_next; eauto.
    + right. destruct num as [|c w]; [congruence|]. inversion H2; subst. simpl. unfold blank, digit in *. lia.
    + apply int_lex; auto; [apply numeralEnds_stop; auto|]. intros E0. destruct (H4 E0) as [->|(Q1 & Q2 & Q3)]; [reflexivity|].
      unfold isxboDigitStart. rewrite !orb_false_iff, !Z.eqb_neq. auto.
  - eapply scan_next; eauto.
    + right. destruct a as [|c w]; [congruence|]. inversion H3; subst. simpl. unfold blank, digit in *. lia.
    + apply float_lex; auto. apply numeralEnds_stop; auto.
  - eapply scan_next; eauto; [right; simpl; unfold blank; lia|].
    apply (base_lex X 120 w rest isHex); [auto|apply (forallb_P _ _ _ hex_b); auto|eapply SB; eauto using hex_b].
  - eapply scan_next; eauto; [right; simpl; unfold blank; lia|].
    apply (base_lex X 98 w rest isBinary); [auto|apply (forallb_P _ _ _ bin_b); auto|eapply SB; eauto using bin_b].
  - eapply scan_next; eauto; [right; simpl; unfold blank; lia|].
    apply (base_lex X 111 w rest isOctal); [auto|apply (forallb_P _ _ _ oct_b); auto|eapply SB; eauto using oct_b].
Qed.

Example C09_ex : exists ts, scanAll X0 9 (str "0..10 1.5...2") = Ok ts /\
  map (fun t => (tTok t, tLit t)) ts =
  [(INT, str "0"); (INCLUSIVE_BOUND, str ".."); (INT, str "10"); (FLOAT, str "1.5"); (EXCLUSIVE_BOUND, str "...");
   (INT, str "2"); (EOF, [])].
Proof. eexists. split; [vm_compute; reflexivity|reflexivity]. Qed.
Example C07_ex : exists ts, scanAll X0 9 (str "int8 int$") = Ok ts /\
  map tTok ts = [IDENT; IDENT; EOF].
Proof. eexists. split; [vm_compute; reflexivity|reflexivity]. Qed.

(** ** C10 *)

Theorem C10_panics_exactly_on_empty_open_string : forall X s n ts l, decodable s ->
  scans X n (newLexer s) = Ok (ts, l) ->
  exists k, covers s 0 ts k /\
    (scan X l = Panic <-> exists g rest, skipn k s = g ++ 34 :: rest /\ allBlank g /\ (rest = [] \/ hd 0 rest = 10)) /\
    (scan X l <> Panic -> exists t l', scan X l = Ok (t, l')).
Proof.
  intros X s n ts l D H. destruct (scans_new X s n ts l D H) as (k & HC & HS).
  exists k. split; auto. split.
  - destruct (scan_step_full X s l k HS) as [[B E]|(B & g & tk & text & lit & rest & l1 & er & H1 & H2 & H3 & H4 & H5 & H6 & _)].
    + split; auto. intros _. destruct B as (r & B1 & B2). exists (takeB isSpace (skipn k s)), r.
      split; [|split; [apply take_blank|auto]]. rewrite <- B1. now rewrite take_drop.
    + split; [rewrite H5; discriminate|]. intros (g' & rest' & Q1 & Q2 & Q3). exfalso. apply B.
      rewrite Q1. destruct (blank_split g' (34 :: rest') Q2) as [_ ->]; [right; simpl; unfold blank; lia|].
      exists rest'. auto.
  - intros NP. destruct (scan_total X s l k HS) as [|]; [contradiction|auto].
Qed.

Example C10_ex1 : scanAll X0 9 (str "a = """) = Panic. Proof. vm_compute; reflexivity. Qed.
Example C10_ex2 : scanAll X0 9 (str "a """ ++ [10] ++ str "b""") = Panic. Proof. vm_compute; reflexivity. Qed.

(** ** C11 *)

Theorem C11_errors_recorded : forall X s n ts l, decodable s -> scans X n (newLexer s) = Ok (ts, l) ->
  errCount l = zlen (errors l) /\
  exists k, covers s 0 ts k /\
  forall t l', scan X l = Ok (t, l') ->
    exists g text rest, skipn k s = g ++ text ++ rest /\ allBlank g /\ tPos t = posAt s (k + length g) /\
      tokText (tTok t) text rest (tLit t) /\
      ((* an unterminated text literal *)
       ((exists a, a <> [] /\ text = 34 :: a /\ ~ In 34 a /\ ~ In 10 a) /\ (rest = [] \/ hd 0 rest = 10) /\
        exists m, errors l' = errors l ++ [mkLexError (Z.of_nat (k + length g + length text)) m])
       \/
       (~ (exists a, text = 34 :: a /\ ~ In 34 a) /\ errors l' = errors l)).
Proof.
  intros X s n ts l D H. split.
  - destruct (newLexer_at s D) as (_ & E1 & E2 & _).
    assert (E0 : errCount (newLexer s) = zlen (errors (newLexer s))) by (rewrite E1, E2; reflexivity).
    assert (HS := newLexer_st s D). revert H HS E0. clear E1 E2. generalize (newLexer s) as l0, 0%nat as k, ts.
    induction n; intros l0 k ts0 H HS E0; simpl in H; [inversion H; subst; auto|].
    destruct (scan_step_full X s l0 k HS) as [[_ E]|(_ & g & tk & text & lit & rest & l1 & er & _ & _ & _ & _ & H5 & H6 & H7)].
    + rewrite E in H. discriminate.
    + rewrite H5 in H. cbn [rbind] in H. destruct (scans X n l1) as [[ts1 l2]| | |] eqn:E; cbn [rbind] in H; try discriminate.
      inversion H; subst. eapply IHn; eauto. destruct H7 as [(_ & -> & ->)|(_ & -> & ->)]; auto.
      rewrite zlen_app, E0. reflexivity.
  - destruct (scans_new X s n ts l D H) as (k & HC & HS). exists k. split; auto. intros t l' HT.
    destruct (scan_step_full X s l k HS) as [[_ E]|(_ & g & tk & text & lit & rest & l1 & er & H1 & H2 & H3 & _ & H5 & H6 & H7)];
      [congruence|].
    rewrite H5 in HT. inversion HT; subst. simpl. exists g, text, rest.
    split; auto. split; auto. split; auto. split; auto.
    destruct H7 as [(NO & E1 & E2)|((a & A1 & A2 & A3 & A4 & A5) & E1 & E2)].
    + right. split; auto. intros (a & A1 & A2). 
      destruct H3 as [(_ & -> & _)|(_ & _ & N10 & HL)]; [discriminate|].
      rewrite A1 in HL, N10. inversion HL as [|w r Hw E3 E4|w b r Hw Hr E3 E4|? ? ? ? Hhd]; subst.
      * apply A2. apply in_or_app; right; left; auto.
      * apply NO. exists (lit ++ [b]). split; [destruct lit; simpl; congruence|].
        split; auto. split; auto. split; auto. intros HI. apply N10. right. auto.
      * simpl in *. congruence.
    + left. split; [exists a; auto|]. split; auto. exists msgNewline. auto.
Qed.

Example C11_ex : exists ts l, scans X0 6 (newLexer (str "a = ""bc" ++ [10] ++ str "d = ""e")) = Ok (ts, l) /\ errCount l = 2.
Proof. do 2 eexists. split; [vm_compute; reflexivity|reflexivity]. Qed.

(** ** C08, C13: tokens *)

Theorem C08_lookup : forall w t, lookup w = t <-> kindOf w t.
Proof. intros. symmetry. apply lookup_kind. Qed.

Theorem C08_lookup_inverts_names : forall w t, In (w, t) keywordTable -> tokenString t = w /\ lookup (tokenString t) = t.
Proof.
  intros w t H. assert (tokenString t = w).
  { unfold keywordTable in H. simpl in H.
    repeat (destruct H as [H|H]; [injection H as <- <-; vm_compute; reflexivity|]). contradiction. }
  split; auto. rewrite H0. apply lookup_kind. left; auto.
Qed.

Theorem C08_names_distinct : forall t u, tokenString t = tokenString u -> t = u.
Proof. intros t u. destruct t; destruct u; intros H; first [reflexivity | vm_compute in H; discriminate H]. Qed.

Theorem C13_classes : forall t,
  (isControlOp t = true <-> In t [SIZE; BITS; REGEXP; CBOR; CBORSEQ; WITHIN; AND; LT; LE; GT; GE; EQ; NE; DEFAULT;
                                  PLUS; CAT; DET; ABNF; ABNFB; FEATURE]) /\
  (isNumeric t = true <-> In t [INT; UINT; NINT; FLOAT; FLOAT16; FLOAT32; FLOAT64]).
Proof.
  intros t. split; destruct t; split; intros H; 
    first [vm_compute; tauto | vm_compute in H; discriminate H | reflexivity
          | exfalso; simpl in H; repeat (destruct H as [H|H]; [discriminate H|]); exact H].
Qed.

(** The binding powers, as a table. *)
Theorem C13_precedence : forall t,
  precedence t =
    if existsb (teq t) [EQ; TYPE_CHOICE_ASSIGN; GROUP_CHOICE_ASSIGN] then 1
    else if existsb (teq t) [GROUP_CHOICE] then 2
    else if existsb (teq t) [COMMA] then 3
    else if existsb (teq t) [ZERO_OR_MORE; ONE_OR_MORE; OPTIONAL] then 4
    else if existsb (teq t) [ARROW_MAP; COLON] then 5
    else if existsb (teq t) [TYPE_CHOICE] then 6
    else if existsb (teq t) [INCLUSIVE_BOUND; EXCLUSIVE_BOUND; SIZE; BITS; REGEXP; CBOR; CBORSEQ; WITHIN; AND;
                             LT; LE; GT; GE; NE; DEFAULT; PLUS; CAT; DET; ABNF; ABNFB; FEATURE] then 7
    else if existsb (teq t) [AMPERSAND; UNWRAP] then 8
    else 0.
Proof. destruct t; vm_compute; reflexivity. Qed.

Theorem C13_isLiteral : forall t lit, isLiteral t lit = true <->
  t = TEXT_LITERAL \/ (isNumeric t = true /\ lit <> tokenString t).
Proof.
  intros t lit. split.
  - destruct t; cbn [isLiteral]; intros H; try discriminate; auto; right; split; try reflexivity;
      intros E; rewrite E in H; vm_compute in H; discriminate.
  - intros [->|[H1 H2]]; [reflexivity|]. destruct t; try (vm_compute in H1; discriminate); cbn [isLiteral];
      apply negb_true_iff; destruct (beq _ _) eqn:E; auto; apply beq_eq in E; exfalso; apply H2; rewrite E; vm_compute; reflexivity.
Qed.

(** A numeral scanned by the lexer is a literal, the keyword that shares its
    token is not. *)
Example C13_ex : isLiteral INT (str "12") = true /\ isLiteral INT (str "int") = false /\ isLiteral FLOAT (str "float") = false.
Proof. vm_compute. auto. Qed.

(** ** C12 *)

Theorem C12_caller_buffer : forall fresh extra h v, sliceOk h v -> fresh <> sArr v ->
  let '(h', v') := newLexerBuffer fresh extra h v in
  (* the lexer reads the caller's bytes followed by a space *)
  contents h' v' = contents h v ++ [32] /\
  (* the caller's slice still shows the same bytes *)
  contents h' v = contents h v /\
  (* with spare capacity exactly the byte after the slice becomes a space *)
  ((sLen v < sCap v)%nat -> forall i, nth i (hget h' (sArr v)) 0 =
      if Nat.eqb i (sOff v + sLen v) then 32 else nth i (hget h (sArr v)) 0) /\
  (* without spare capacity no existing array changes *)
  (sLen v = sCap v -> forall a, a <> fresh -> hget h' a = hget h a) /\
  (forall a, a <> fresh -> a <> sArr v -> hget h' a = hget h a).
Proof.
  intros fresh extra h v HO HF. pose proof HO as [O1 O2]. unfold newLexerBuffer.
  destruct (le_lt_dec (sCap v) (sLen v)) as [L|L].
  - assert (E : sLen v = sCap v) by lia. pose proof (append_noroom fresh extra h v 32 HO E) as H.
    destruct (append1 fresh extra h v 32) as [h' v']. destruct H as [H1 H2].
    split; auto. split; [unfold contents; rewrite H2 by auto; reflexivity|].
    split; [intros; lia|]. split; auto.
  - pose proof (append_room fresh extra h v 32 HO L) as H.
    destruct (append1 fresh extra h v 32) as [h' v']. destruct H as (H1 & H2 & H3 & H4).
    split; auto. split.
    + apply nth_ext_z; unfold contents.
      * rewrite !firstn_length, !skipn_length. lia.
      * intros i Hi. rewrite firstn_length in Hi. rewrite !nth_firstn, !nth_skipn, H4 by lia.
        destruct (Nat.eqb_spec (sOff v + i) (sOff v + sLen v)); auto. lia.
    + split; auto. split; [intros; lia|auto].
Qed.

(** The caller's array "ab=cd" seen through its first two bytes: the third byte
    is overwritten. *)
Example C12_ex : let h := [(0%nat, str "ab=cd")] in let v := mkSlice 0 0 2 5 in
  sliceOk h v /\ hget (fst (newLexerBuffer 1 0 h v)) 0 = str "ab cd".
Proof. vm_compute. split; [split; lia|reflexivity]. Qed.
