(** One call of Scan on a decodable source, as a function of the suffix. *)
From Coq Require Import String.
From Verif Require Import Base Utf8 Token Ext Lexer LexSpec LexerProofs.
Open Scope string_scope.
Open Scope list_scope.
Open Scope Z_scope.

(** * Line bookkeeping *)

Fixpoint nlPos (s : bytes) (k : Z) : list Z :=
  match s with
  | [] => []
  | c :: r => if c =? 10 then k :: nlPos r (k + 1) else nlPos r (k + 1)
  end.

Definition linesOf (pre : bytes) : list Z := -1 :: nlPos pre 0.

Lemma nlPos_app : forall a b k, nlPos (a ++ b) k = nlPos a k ++ nlPos b (k + zlen a).
Proof.
  induction a; intros b k; simpl.
  - now rewrite zlen_nil, Z.add_0_r.
  - rewrite zlen_cons, IHa. replace (k + 1 + zlen a0) with (k + (1 + zlen a0)) by lia.
    destruct (a =? 10); reflexivity.
Qed.

Lemma nlPos_none : forall a k, Forall (fun c => c <> 10) a -> nlPos a k = [].
Proof.
  induction a; intros k H; simpl; auto. inversion H; subst.
  apply Z.eqb_neq in H2. rewrite H2; auto.
Qed.

Lemma last_nlPos : forall a k p d,
  last (p :: nlPos a k) d =
  (if newlines a =? 0 then p else k + zlen a - 1 - sinceNewline a 0).
Proof.
  assert (NN : forall a, 0 <= newlines a) by (induction a; simpl; [lia|destruct (a =? 10); lia]).
  assert (SN : forall a n, newlines a = 0 -> sinceNewline a n = n + zlen a).
  { induction a; intros n; simpl; [intros _; unfold zlen; simpl; lia|].
    pose proof (NN a0). destruct (a =? 10) eqn:E; intros H0; [lia|].
    rewrite IHa, zlen_cons by lia. lia. }
  assert (SI : forall a n m, newlines a <> 0 -> sinceNewline a n = sinceNewline a m).
  { induction a; intros n m; simpl; [congruence|].
    destruct (a =? 10) eqn:E; intros H0; auto. }
  induction a; intros k p d.
  - reflexivity.
  - simpl nlPos. simpl newlines. simpl sinceNewline. rewrite zlen_cons. pose proof (NN a0).
    destruct (a =? 10) eqn:E.
    + replace (1 + newlines a0 =? 0) with false by (symmetry; apply Z.eqb_neq; lia).
      change (last (p :: k :: nlPos a0 (k + 1)) d) with (last (k :: nlPos a0 (k + 1)) d).
      rewrite IHa. destruct (newlines a0 =? 0) eqn:E2.
      * apply Z.eqb_eq in E2. rewrite SN by auto. lia.
      * lia.
    + rewrite Z.add_0_l. rewrite IHa. destruct (newlines a0 =? 0) eqn:E2; auto.
      apply Z.eqb_neq in E2. rewrite (SI a0 1 0) by auto. lia.
Qed.

Lemma sinceNewline_none : forall a n, newlines a = 0 -> sinceNewline a n = n + zlen a.
Proof.
  assert (NN : forall a, 0 <= newlines a) by (induction a; simpl; [lia|destruct (a =? 10); lia]).
  induction a; intros n; simpl; [intros _; unfold zlen; simpl; lia|].
  pose proof (NN a0). destruct (a =? 10) eqn:E; intros H0; [lia|].
  rewrite IHa, zlen_cons by lia. lia.
Qed.

Lemma last_linesOf : forall pre d, zlen pre - last (linesOf pre) d = 1 + sinceNewline pre 0.
Proof.
  intros. unfold linesOf. rewrite last_nlPos. destruct (newlines pre =? 0) eqn:E.
  - apply Z.eqb_eq in E. rewrite sinceNewline_none by auto. lia.
  - lia.
Qed.

Lemma sinceNewline_nonneg : forall a n, 0 <= n -> 0 <= sinceNewline a n.
Proof. induction a; intros n H; simpl; auto. apply IHa. destruct (a =? 10); lia. Qed.

Lemma last_linesOf_lt : forall pre d, last (linesOf pre) d < zlen pre.
Proof. intros. pose proof (last_linesOf pre d). pose proof (sinceNewline_nonneg pre 0). lia. Qed.

Lemma length_nlPos : forall a k, Z.of_nat (length (nlPos a k)) = newlines a.
Proof. induction a; intros k; simpl; auto. destruct (a =? 10); simpl length; rewrite ?Nat2Z.inj_succ, IHa; lia. Qed.

Lemma length_linesOf : forall pre, Z.of_nat (length (linesOf pre)) = 1 + newlines pre.
Proof. intros. unfold linesOf. simpl length. rewrite Nat2Z.inj_succ, length_nlPos. lia. Qed.

Lemma linesOf_app : forall pre a, Forall (fun c => c <> 10) a -> linesOf (pre ++ a) = linesOf pre.
Proof. intros. unfold linesOf. rewrite nlPos_app, (nlPos_none a) by auto. now rewrite app_nil_r. Qed.

Lemma linesOf_nl : forall pre, linesOf (pre ++ [10]) = linesOf pre ++ [zlen pre].
Proof. intros. unfold linesOf. rewrite nlPos_app. simpl. reflexivity. Qed.

(** Position built by Scan. *)
Lemma scan_pos : forall pre, 
  mkPos [] (zlen pre) (Z.of_nat (length (linesOf pre))) (zlen pre - last (linesOf pre) 0)
  = mkPos [] (zlen pre) (1 + newlines pre) (1 + sinceNewline pre 0).
Proof. intros. rewrite length_linesOf, last_linesOf. reflexivity. Qed.

(** Errors unchanged. *)
Record sameErr (l l' : lexer) : Prop := mkSameErr {
  se_src : src l' = src l;
  se_errCount : errCount l' = errCount l;
  se_errors : errors l' = errors l }.

Lemma addLine_at : forall s l pre suf k, At s l pre suf -> At s (addLineOffset l k) pre suf.
Proof.
  intros s l pre suf k []. unfold addLineOffset. destruct (_ <? _); split; auto.
Qed.

Lemma addLine_lines : forall l pre, lineOffsets l = linesOf pre -> offset l = zlen pre ->
  lineOffsets (addLineOffset l (offset l)) = linesOf (pre ++ [10]).
Proof.
  intros l pre H1 H2. unfold addLineOffset. rewrite H1, H2.
  pose proof (last_linesOf_lt pre 0).
  replace (zlen pre <? last (linesOf pre) 0) with false by (symmetry; apply Z.ltb_ge; lia).
  simpl. now rewrite linesOf_nl.
Qed.

(** [skipWhitespace] consumes the longest run of blanks; at the end of the
    source it ends on EOF. *)
Lemma skip_at : forall s n l pre suf, At s l pre suf -> Good suf -> (length suf + 1 <= n)%nat ->
  lineOffsets l = linesOf pre ->
  exists l', skipWhitespace n l = Ok l' /\
    At s l' (pre ++ takeB isSpace suf) (dropB isSpace suf) /\
    Good (dropB isSpace suf) /\ sameErr l l' /\
    lineOffsets l' = linesOf (pre ++ takeB isSpace suf) /\
    chr l' = match dropB isSpace suf with [] => -1 | _ => hdR (dropB isSpace suf) end.
Proof.
  intros s. induction n; intros l pre suf A G Hn HL; [lia|].
  destruct suf as [|b suf'].
  - simpl takeB; simpl dropB. rewrite app_nil_r. simpl skipWhitespace.
    destruct (at_chr _ _ _ _ A) as [C|[_ C]].
    + simpl in C. rewrite C. change (isSpace 32) with true. cbn match.
      change (32 =? 10) with false. cbn match.
      destruct (next_end _ _ _ A) as (A' & C' & S').
      assert (skipWhitespace n (next l) = Ok (next l)) by (destruct n; simpl; rewrite C'; reflexivity).
      rewrite H. exists (next l). destruct S' as [S1 S2 S3 S4]. rewrite HL in S4.
      split; [reflexivity|]. split; [exact A'|]. split; [exact G|]. split; [split; auto|]. split; [exact S4|exact C'].
    + rewrite C. change (isSpace (-1)) with false. exists l.
      split; [reflexivity|]. split; [exact A|]. split; [exact G|]. split; [split; auto|]. split; [exact HL|exact C].
  - destruct (good_rune _ G ltac:(congruence)) as (r & cs & t & R).
    assert (Hc : chr l = r).
    { rewrite <- (rune_hdR _ _ _ _ R). destruct (at_chr _ _ _ _ A) as [|[? _]]; congruence. }
    simpl skipWhitespace. rewrite Hc. destruct (isSpace r) eqn:E.
    + destruct (rune_take _ _ _ _ _ unif_space R E) as [T1 T2]. rewrite T1, T2.
      assert (Hcs : cs = [r]).
      { destruct (ru_case _ _ _ _ R) as [[_ ?]|[Hr _]]; auto.
        unfold isSpace in E. rewrite !orb_true_iff, !Z.eqb_eq in E. lia. }
      set (l1 := if r =? 10 then addLineOffset l (offset l) else l).
      assert (A1 : At s l1 pre (b :: suf')) by (unfold l1; destruct (r =? 10); auto using addLine_at).
      assert (L1 : lineOffsets l1 = linesOf (pre ++ cs)).
      { unfold l1. rewrite Hcs. destruct (r =? 10) eqn:E10.
        - apply Z.eqb_eq in E10; subst r. rewrite E10. apply addLine_lines; auto. apply (at_off _ _ _ _ A).
        - rewrite linesOf_app; auto. constructor; [apply Z.eqb_neq; auto|constructor]. }
      assert (SE : sameErr l l1).
      { unfold l1, addLineOffset. destruct (r =? 10); [destruct (_ <? _)|]; split; auto. }
      destruct (next_at _ _ _ _ _ _ _ A1 R) as (A' & _ & S').
      destruct (IHn (next l1) (pre ++ cs) t) as (l' & H1 & H2 & H3 & H4 & H5 & H6); auto.
      * apply (ru_good _ _ _ _ R).
      * pose proof (ru_len _ _ _ _ R). pose proof (f_equal (@length Z) (ru_split _ _ _ _ R)) as HLn.
        rewrite app_length in HLn. lia.
      * destruct S'; congruence.
      * exists l'. rewrite app_assoc. split; [exact H1|]. split; [exact H2|]. split; [exact H3|].
        split; [|split; [exact H5|exact H6]].
        destruct S', SE, H4; split; congruence.
    + destruct (rune_stop _ _ _ _ _ unif_space R E) as [T1 T2]. rewrite T1, T2, app_nil_r.
      exists l. split; [reflexivity|]. split; [exact A|]. split; [exact G|]. split; [split; auto|]. split; [exact HL|].
      now rewrite (rune_hdR _ _ _ _ R).
Qed.

(** * The suffix lexer *)

(** The byte after the rune at the front of a non-empty suffix. *)
Definition peekB (suf : bytes) : Z :=
  hd 32 (skipn (Z.to_nat (snd (decodeRune suf))) suf).

Definition numCond (X : Ext) (suf : bytes) : bool :=
  match suf with
  | [] => false
  | _ => uniIsDigit X (hdR suf) || ((hdR suf =? 46) && uniIsDigit X (peekB suf))
  end.

(** A dot that starts neither ".." nor "...". *)
Definition loneDot (suf : bytes) : bool :=
  match suf with
  | [] => false
  | _ => (hdR suf =? 46) && negb (peekB suf =? 46)
  end.

Fixpoint numSuf (X : Ext) (n : nat) (tok : token) (suf : bytes) : token * bytes :=
  match n with
  | O => (tok, [])
  | S m =>
    if numCond X suf then
      let w := Z.to_nat (snd (decodeRune suf)) in
      let t := skipn w suf in
      let '(tk, a) := numSuf X m (if loneDot t then FLOAT else tok) t in
      (tk, firstn w suf ++ a)
    else (tok, [])
  end.

Definition lexNum (X : Ext) (suf : bytes) : token * bytes :=
  let c := hd 0 (tl suf) in
  let t := tl (tl suf) in
  if hd 0 suf =? 48 then
    if c =? 120 then (INT, 48 :: c :: takeB isHex t)
    else if c =? 98 then (INT, 48 :: c :: takeB isBinary t)
    else if c =? 111 then (INT, 48 :: c :: takeB isOctal t)
    else numSuf X (length suf) INT suf
  else numSuf X (length suf) INT suf.

Definition lexDot (X : Ext) (t : bytes) : token * bytes :=
  if hd 0 t =? 46 then
    if hd 0 (tl t) =? 46 then (EXCLUSIVE_BOUND, [46; 46; 46]) else (INCLUSIVE_BOUND, [46; 46])
  else if uniIsLetter X (hdR t) then
    let lit := 46 :: takeB isLetter t in (lookup lit, lit)
  else (PERIOD, [46]).

Definition lexSlash (t : bytes) : token * bytes :=
  if hd 0 t =? 61 then (TYPE_CHOICE_ASSIGN, [47; 61])
  else if hd 0 t =? 47 then
    if hd 0 (tl t) =? 61 then (GROUP_CHOICE_ASSIGN, [47; 47; 61]) else (GROUP_CHOICE, [47; 47])
  else (TYPE_CHOICE, [47]).

Definition identTok (lit : bytes) : token :=
  if 2 <? Z.of_nat (length lit) then lookup lit else IDENT.

(** Token, source text, literal, and whether a lexer error is recorded; [None]
    is a panic. *)
Definition lexOne (X : Ext) (suf : bytes) : option (token * bytes * bytes * bool) :=
  match suf with
  | [] => Some (EOF, [], [], false)
  | b :: t =>
    if isIdentifierStart b then
      let a := takeB isIdentifierBodyChar suf in Some (identTok a, a, a, false)
    else if isDigit b then let '(tk, a) := lexNum X suf in Some (tk, a, a, false)
    else match punct b with
    | Some tk => Some (tk, [b], [b], false)
    | None =>
      if b =? 59 then let a := takeB notNl t in Some (COMMENT, b :: a, a, false)
      else if b =? 61 then
        if hd 0 t =? 62 then Some (ARROW_MAP, [61; 62], [61; 62], false)
        else Some (ASSIGN, [61], [61], false)
      else if b =? 47 then let '(tk, a) := lexSlash t in Some (tk, a, a, false)
      else if b =? 46 then let '(tk, a) := lexDot X t in Some (tk, a, a, false)
      else if b =? 34 then
        let a := takeB inStr t in
        if hd 0 (dropB inStr t) =? 34 then Some (TEXT_LITERAL, 34 :: a ++ [34], a, false)
        else match a with
             | [] => None
             | _ => Some (TEXT_LITERAL, 34 :: a, removelast a, true)
             end
      else let cs := firstn (Z.to_nat (snd (decodeRune suf))) suf in
           Some (ILLEGAL, cs, cs, false)
    end
  end.

(** [peek] of a state. *)
Lemma peek_at : forall s l pre suf, At s l pre suf -> Good suf -> suf <> [] -> peek l = peekB suf.
Proof.
  intros s l pre suf A G Hne. destruct (good_rune _ G Hne) as (r & cs & t & R).
  pose proof (rune_decode _ _ _ _ R) as Hd.
  destruct A as [A1 A2 A3 A4 A5]. destruct suf as [|b suf']; [congruence|].
  unfold peek, peekB. rewrite A5, Hd. cbn [snd].
  rewrite A1, A2, (ru_split _ _ _ _ R). rewrite Nat2Z.id, skipn_len_app.
  pose proof (zlen_nonneg pre).
  replace (zlen pre + Z.of_nat (length cs) <? Z.of_nat (length ((pre ++ cs ++ t) ++ [32]))) with true
    by (symmetry; apply Z.ltb_lt; rewrite !app_length; simpl length; unfold zlen; lia).
  replace (Z.to_nat (zlen pre + Z.of_nat (length cs))) with (length (pre ++ cs))
    by (rewrite app_length; unfold zlen; lia).
  rewrite app_assoc, <- app_assoc. rewrite app_nth2 by lia. rewrite Nat.sub_diag.
  destruct t; reflexivity.
Qed.

Lemma peek_at_end : forall s l pre, At s l pre [] -> peek l = 0.
Proof.
  intros s l pre [A1 A2 A3 A4 A5]. unfold peek. rewrite A5, A1, app_length. simpl length.
  replace (zlen s + 1 <? Z.of_nat (length s + 1)) with false; auto.
  symmetry; apply Z.ltb_ge; unfold zlen; lia.
Qed.

Lemma chr_at : forall s l pre suf, At s l pre suf -> suf <> [] -> chr l = hdR suf.
Proof. intros s l pre suf A H. destruct (at_chr _ _ _ _ A) as [|[? _]]; congruence. Qed.

Lemma at_numCond : forall X s l pre suf, At s l pre suf -> Good suf ->
  (uniIsDigit X (chr l) || ((chr l =? 46) && uniIsDigit X (peek l))) = numCond X suf.
Proof.
  intros X s l pre suf A G. destruct suf as [|b suf'].
  - destruct (at_chr _ _ _ _ A) as [C|[_ C]]; rewrite C; reflexivity.
  - unfold numCond. rewrite (chr_at _ _ _ _ A), (peek_at _ _ _ _ A) by congruence. reflexivity.
Qed.

Lemma at_loneDot : forall s l pre suf, At s l pre suf -> Good suf ->
  ((chr l =? 46) && negb (peek l =? 46)) = loneDot suf.
Proof.
  intros s l pre suf A G. destruct suf as [|b suf'].
  - destruct (at_chr _ _ _ _ A) as [C|[_ C]]; rewrite C; reflexivity.
  - unfold loneDot. rewrite (chr_at _ _ _ _ A), (peek_at _ _ _ _ A) by congruence. reflexivity.
Qed.

Lemma numberLoop_at : forall X s n m tok l pre suf, At s l pre suf -> Good suf ->
  (length suf + 1 <= n)%nat -> (length suf <= m)%nat ->
  exists l' b, numberLoop X n tok l = Ok (fst (numSuf X m tok suf), l') /\
    suf = snd (numSuf X m tok suf) ++ b /\
    At s l' (pre ++ snd (numSuf X m tok suf)) b /\ Good b /\ same l l' /\ numCond X b = false.
Proof.
  intros X s. induction n; intros m tok l pre suf A G Hn Hm; [lia|].
  simpl numberLoop. rewrite (at_numCond X _ _ _ _ A G).
  destruct (numCond X suf) eqn:E.
  - assert (Hne : suf <> []) by (intros ->; discriminate).
    destruct m as [|m]; [destruct suf; [congruence|simpl in Hm; lia]|].
    destruct (good_rune _ G Hne) as (r & cs & t & R).
    pose proof (rune_decode _ _ _ _ R) as Hd.
    destruct (next_at _ _ _ _ _ _ _ A R) as (A' & _ & S').
    rewrite (at_loneDot _ _ _ _ A' (ru_good _ _ _ _ R)).
    simpl numSuf. rewrite E, Hd. cbn [snd]. rewrite Nat2Z.id.
    assert (F1 : firstn (length cs) suf = cs) by (rewrite (ru_split _ _ _ _ R); apply firstn_len_app).
    assert (F2 : skipn (length cs) suf = t) by (rewrite (ru_split _ _ _ _ R); apply skipn_len_app).
    rewrite F1, F2.
    pose proof (ru_len _ _ _ _ R). pose proof (f_equal (@length Z) (ru_split _ _ _ _ R)) as HL.
    rewrite app_length in HL.
    destruct (IHn m (if loneDot t then FLOAT else tok) (next l) (pre ++ cs) t A' (ru_good _ _ _ _ R))
      as (l' & b & H1 & H2 & H3 & H4 & H5 & H6); [lia|lia|].
    destruct (numSuf X m (if loneDot t then FLOAT else tok) t) as [tk a] eqn:EN.
    cbn [fst snd] in *. exists l', b. rewrite H1. split; auto.
    split; [rewrite (ru_split _ _ _ _ R), H2 at 1; now rewrite app_assoc|].
    split; [now rewrite app_assoc|]. split; auto. split; auto. eapply same_trans; eauto.
  - assert (numSuf X m tok suf = (tok, [])) as -> by (destruct m; simpl; auto; now rewrite E).
    exists l, suf. simpl. rewrite app_nil_r. repeat (split; auto using same_refl).
Qed.

(** [scanString] after the opening quote. *)
Lemma stringLoop_at : forall s n l pre suf, At s l pre suf -> Good suf -> (length suf + 1 <= n)%nat ->
  exists l', stringLoop n l = Ok l' /\
    if hd 0 (dropB inStr suf) =? 34 then
      let t := tl (dropB inStr suf) in
      At s l' (pre ++ takeB inStr suf ++ [34]) t /\ Good t /\ same l l'
    else
      let b := dropB inStr suf in
      At s l' (pre ++ takeB inStr suf) b /\ Good b /\
      src l' = src l /\ lineOffsets l' = lineOffsets l /\ errCount l' = errCount l + 1 /\
      errors l' = errors l ++ [mkLexError (zlen (pre ++ takeB inStr suf)) msgNewline].
Proof.
  intros s. induction n; intros l pre suf A G Hn; [lia|].
  destruct suf as [|b suf'].
  - simpl takeB; simpl dropB. rewrite app_nil_r.
    assert (Hend : forall n l, At s l pre [] -> chr l = -1 ->
      exists l', stringLoop n l = Ok l' /\ At s l' pre [] /\ Good [] /\
           src l' = src l /\ lineOffsets l' = lineOffsets l /\ errCount l' = errCount l + 1 /\
           errors l' = errors l ++ [mkLexError (zlen pre) msgNewline]).
    { intros k l0 A0 C0. exists (addError l0 (offset l0) msgNewline).
      split; [destruct k; simpl; rewrite C0; reflexivity|].
      destruct A0 as [B1 B2 B3 B4 B5]. split; [split; auto|]. split; auto. unfold addError; simpl. repeat split; auto.
      now rewrite B3. }
    destruct (at_chr _ _ _ _ A) as [C|[_ C]]; [|apply Hend; auto].
    simpl in C. simpl stringLoop. rewrite C. change ((32 <? 0) || (32 =? 10)) with false. cbn match.
    change (32 =? 34) with false. cbn match.
    destruct (next_end _ _ _ A) as (A' & C' & S').
    destruct (Hend n (next l) A' C') as (l' & H1 & H2 & H3 & H4 & H5 & H6 & H7).
    exists l'. destruct S' as [S1 S2 S3 S4].
    split; [exact H1|]. split; [exact H2|]. split; [exact H3|]. repeat split; congruence.
  - destruct (good_rune _ G ltac:(congruence)) as (r & cs & t & R).
    assert (Hc : chr l = r).
    { rewrite <- (rune_hdR _ _ _ _ R). destruct (at_chr _ _ _ _ A) as [|[? _]]; congruence. }
    pose proof (ru_range _ _ _ _ R) as Hrr.
    simpl stringLoop. rewrite Hc.
    destruct (inStr r) eqn:E.
    + pose proof E as E'. unfold inStr in E'.
      rewrite !andb_true_iff, !negb_true_iff in E'. destruct E' as [[_ E1] E2].
      rewrite E1, E2. replace (r <? 0) with false by (symmetry; apply Z.ltb_ge; lia). cbn [orb].
      destruct (next_at _ _ _ _ _ _ _ A R) as (A' & _ & S').
      destruct (rune_take _ _ _ _ _ unif_inStr R E) as [T1 T2]. rewrite T1, T2.
      destruct (IHn (next l) (pre ++ cs) t A' (ru_good _ _ _ _ R)) as (l' & H1 & H2).
      { pose proof (ru_len _ _ _ _ R). pose proof (f_equal (@length Z) (ru_split _ _ _ _ R)) as HLn.
        rewrite app_length in HLn. lia. }
      exists l'. split; auto.
      assert (HX : forall q : list Z, (pre ++ cs) ++ takeB inStr t ++ q = pre ++ (cs ++ takeB inStr t) ++ q)
        by (intros; now rewrite <- !app_assoc).
      rewrite HX in H2. rewrite <- app_assoc in H2. destruct S' as [S1 S2 S3 S4].
      assert (HF : forall b0, At s l' (pre ++ cs ++ takeB inStr t) b0 /\ Good b0 /\ src l' = src (next l) /\
        lineOffsets l' = lineOffsets (next l) /\ errCount l' = errCount (next l) + 1 /\
        errors l' = errors (next l) ++ [mkLexError (zlen (pre ++ cs ++ takeB inStr t)) msgNewline] ->
        At s l' (pre ++ cs ++ takeB inStr t) b0 /\ Good b0 /\ src l' = src l /\
        lineOffsets l' = lineOffsets l /\ errCount l' = errCount l + 1 /\
        errors l' = errors l ++ [mkLexError (zlen (pre ++ cs ++ takeB inStr t)) msgNewline]).
      { intros b0 (? & ? & ? & ? & ? & ?). repeat (split; auto); congruence. }
      destruct (hd 0 (dropB inStr t) =? 34).
      * destruct H2 as (B1 & B2 & B3). split; [rewrite <- app_assoc; exact B1|]. split; [exact B2|].
        eapply same_trans; [|exact B3]. split; auto.
      * apply HF. rewrite <- app_assoc in H2. exact H2.
    + destruct (rune_stop _ _ _ _ _ unif_inStr R E) as [T1 T2]. rewrite T1, T2.
      destruct (Z.eq_dec r 10) as [H10|H10].
      * assert (cs = [10]) by (destruct (ru_case _ _ _ _ R) as [[_ ?]|[? _]]; [congruence|lia]).
        assert (Hb : b = 10) by (pose proof (ru_split _ _ _ _ R) as Hs; rewrite H in Hs; simpl in Hs; congruence).
        rewrite H10. change ((10 <? 0) || (10 =? 10)) with true. cbn match.
        exists (addError l (offset l) msgNewline). split; auto. rewrite app_nil_r. rewrite Hb in *.
        destruct A as [B1 B2 B3 B4 B5]. split; [split; auto|]. split; auto. simpl. repeat split; auto. now rewrite B3.
      * assert (r = 34).
        { unfold inStr in E. rewrite !andb_false_iff, !negb_false_iff, Z.leb_gt, !Z.eqb_eq in E. lia. }
        subst r. rewrite H.
        assert (Hcs : cs = [34]) by (destruct (ru_case _ _ _ _ R) as [[_ ?]|[? _]]; [congruence|lia]).
        assert (Hb : b :: suf' = 34 :: t) by (pose proof (ru_split _ _ _ _ R) as Hs; rewrite Hcs in Hs; exact Hs).
        rewrite Hb. change ((34 <? 0) || (34 =? 10)) with false. cbn match. change (34 =? 34) with true. cbn match.
        destruct (next_at _ _ _ _ _ _ _ A R) as (A' & _ & S').
        exists (next l). split; auto. simpl. rewrite <- Hcs. split; auto. split; auto. apply (ru_good _ _ _ _ R).
Qed.

(** * One Scan *)

Lemma hdR_eqb : forall t k, Good t -> 0 < k < 128 -> k <> 32 -> (hdR t =? k) = (hd 0 t =? k).
Proof.
  intros t k G H1 H2. destruct t as [|b t'].
  - cbn [hdR hd]. rewrite (proj2 (Z.eqb_neq 32 k)), (proj2 (Z.eqb_neq 0 k)) by lia. reflexivity.
  - destruct (good_rune _ G ltac:(congruence)) as (r & cs & t & R).
    rewrite (rune_hdR _ _ _ _ R). pose proof (ru_split _ _ _ _ R) as Hs.
    destruct (ru_case _ _ _ _ R) as [[_ Hc]|[Hr Hc]]; rewrite ?Hc in Hs.
    + simpl in Hs. inversion Hs; subst. reflexivity.
    + destruct cs as [|c cs']; [pose proof (ru_len _ _ _ _ R); simpl in *; lia|].
      simpl in Hs. inversion Hs; subst b. inversion Hc; subst. cbn [hd].
      rewrite (proj2 (Z.eqb_neq r k)), (proj2 (Z.eqb_neq c k)) by lia. reflexivity.
Qed.

Lemma rune_ascii : forall b t, Good (b :: t) -> b < 128 -> Rune (b :: t) b [b] t.
Proof.
  intros b t G Hb. destruct (good_rune _ G ltac:(congruence)) as (r & cs & t0 & R).
  pose proof (rune_decode _ _ _ _ R) as Hd. rewrite decode_ascii in Hd by auto.
  inversion Hd; subst r.
  destruct (ru_case _ _ _ _ R) as [[_ Hc]|[Hr Hc]]; [|lia].
  pose proof (ru_split _ _ _ _ R) as Hs. rewrite Hc in Hs. simpl in Hs. inversion Hs; subst t0.
  rewrite <- Hc. exact R.
Qed.

Lemma rune_high : forall b t, Good (b :: t) -> 128 <= b ->
  exists r cs t', Rune (b :: t) r cs t' /\ 128 <= r.
Proof.
  intros b t G Hb. destruct (good_rune _ G ltac:(congruence)) as (r & cs & t0 & R).
  exists r, cs, t0. split; auto.
  destruct (ru_case _ _ _ _ R) as [[_ Hc]|[Hr Hc]]; auto.
  pose proof (ru_split _ _ _ _ R) as Hs. rewrite Hc in Hs. simpl in Hs. inversion Hs; lia.
Qed.

Lemma peekB_ascii : forall c t, c < 128 -> peekB (c :: t) = hd 32 t.
Proof. intros. unfold peekB. rewrite decode_ascii by auto. reflexivity. Qed.

Lemma hd_eqb : forall t k, k <> 0 -> k <> 32 -> (hd 32 t =? k) = (hd 0 t =? k).
Proof.
  intros. destruct t; cbn [hd]; auto. rewrite (proj2 (Z.eqb_neq 32 k)), (proj2 (Z.eqb_neq 0 k)) by lia. reflexivity.
Qed.

Lemma hd_cons : forall t k, k <> 0 -> (hd 0 t =? k) = true -> exists t', t = k :: t'.
Proof. intros t k H E. apply Z.eqb_eq in E. destruct t; simpl in E; [congruence|]. subst; eauto. Qed.

Lemma good_tail : forall c t, Good (c :: t) -> c < 128 -> Good t.
Proof. intros. apply (ru_good _ _ _ _ (rune_ascii c t H H0)). Qed.

Lemma good_nn : forall c t, Good (c :: t) -> 0 <= c < 256.
Proof. intros c t [H _]. inversion H; auto. Qed.

(** The switch of Scan, lexer.go:73-185, as one expression. *)
Definition scanBody (X : Ext) (l : lexer) : res (token * bytes * lexer) :=
  if isIdentifierStart (chr l) then
    '(lit, l1) <- scanIdentifier l;;
    Ok (if (2 <? Z.of_nat (length lit)) then lookup lit else IDENT, lit, l1)
  else if isDigit (chr l) then scanNumber X l
  else scanDefault X (chr l) (next l).

Lemma scan_unfold : forall X l0, scan X l0 =
  (l <- skipWhitespace (loopFuel l0) l0;;
   '(tok, lit, l') <- scanBody X l;;
   Ok (mkTok tok (mkPos [] (offset l) (Z.of_nat (length (lineOffsets l')))
                        (offset l - last (lineOffsets l') 0)) lit, l')).
Proof. reflexivity. Qed.

(** What a body result must satisfy. *)
Definition bodyOk (X : Ext) (s : bytes) (l : lexer) (pre suf : bytes) (r : res (token * bytes * lexer))
  : Prop :=
  match lexOne X suf with
  | None => r = Panic
  | Some (tk, text, lit, er) =>
    exists l' rest, r = Ok (tk, lit, l') /\ suf = text ++ rest /\ At s l' (pre ++ text) rest /\
      Good rest /\ lineOffsets l' = lineOffsets l /\
      errors l' = errors l ++ (if er then [mkLexError (zlen (pre ++ text)) msgNewline] else []) /\
      errCount l' = errCount l + (if er then 1 else 0)
  end.

Lemma body_done : forall X s l pre suf tk text lit l' rest,
  lexOne X suf = Some (tk, text, lit, false) -> suf = text ++ rest ->
  At s l' (pre ++ text) rest -> Good rest -> same l l' ->
  bodyOk X s l pre suf (Ok (tk, lit, l')).
Proof.
  intros. unfold bodyOk. rewrite H. exists l', rest. destruct H3.
  rewrite app_nil_r, Z.add_0_r. repeat (split; auto).
Qed.

Lemma loop_text : forall cond s l pre suf, uniform cond -> cond (-1) = false -> At s l pre suf -> Good suf ->
  exists l', loopNext cond (loopFuel l) l = Ok l' /\
    gslice (src l') (offset l) (offset l') = Ok (takeB cond suf) /\
    At s l' (pre ++ takeB cond suf) (dropB cond suf) /\ Good (dropB cond suf) /\ same l l'.
Proof.
  intros cond s l pre suf HU Hm A G.
  destruct (loopNext_at cond s HU Hm (loopFuel l) l pre suf A G (at_len _ _ _ _ A)) as (l' & H1 & H2 & H3 & H4).
  exists l'. split; auto. split; auto.
  rewrite (at_off _ _ _ _ A). eapply at_gslice; eauto.
Qed.

Lemma ident_start_lt : forall c, isIdentifierStart c = true -> c < 128.
Proof.
  intros c H. unfold isIdentifierStart in H.
  rewrite !orb_true_iff, !andb_true_iff, !Z.leb_le, !Z.eqb_eq in H. lia.
Qed.
Lemma digit_lt : forall c, isDigit c = true -> 48 <= c <= 57.
Proof. intros c H. unfold isDigit in H. rewrite andb_true_iff, !Z.leb_le in H. lia. Qed.

Lemma ident_at : forall X s l pre b t, At s l pre (b :: t) -> Good (b :: t) ->
  isIdentifierStart b = true -> bodyOk X s l pre (b :: t) (scanBody X l).
Proof.
  intros X s l pre b t A G H. pose proof (ident_start_lt _ H).
  assert (C : chr l = b) by (rewrite (chr_at _ _ _ _ A) by congruence; apply (rune_hdR _ _ _ _ (rune_ascii b t G H0))).
  unfold scanBody. rewrite C, H. unfold scanIdentifier.
  destruct (loop_text isIdentifierBodyChar s l pre (b :: t) unif_ident eq_refl A G)
    as (l' & H1 & H2 & H3 & H4 & H5).
  rewrite H1. cbn [rbind]. rewrite H2. cbn [rbind].
  eapply body_done; eauto.
  - unfold lexOne. rewrite H. reflexivity.
  - now rewrite take_drop.
Qed.

Lemma xbo_cases : forall c, isxboDigitStart c = true -> c = 120 \/ c = 98 \/ c = 111.
Proof. intros c H. unfold isxboDigitStart in H. rewrite !orb_true_iff, !Z.eqb_eq in H. tauto. Qed.

Lemma number_at : forall X s l pre b t, At s l pre (b :: t) -> Good (b :: t) ->
  isDigit b = true -> bodyOk X s l pre (b :: t) (scanBody X l).
Proof.
  intros X s l pre b t A G H. pose proof (digit_lt _ H).
  assert (Hnid : isIdentifierStart b = false).
  { unfold isIdentifierStart. rewrite !orb_false_iff, !andb_false_iff, !Z.leb_gt, !Z.eqb_neq. lia. }
  pose proof (rune_ascii b t G ltac:(lia)) as R.
  assert (C : chr l = b) by (rewrite (chr_at _ _ _ _ A) by congruence; apply (rune_hdR _ _ _ _ R)).
  unfold scanBody. rewrite C, Hnid, H. unfold scanNumber. rewrite C, (peek_at _ _ _ _ A G) by congruence.
  rewrite peekB_ascii by lia.
  assert (HD : (b =? 48) && isxboDigitStart (hd 32 t) = false \/
     numSuf X (length (b :: t)) INT (b :: t) = lexNum X (b :: t) /\
     (b =? 48) && isxboDigitStart (hd 32 t) = false \/
     (b = 48 /\ exists c t', t = c :: t' /\ isxboDigitStart c = true)).
  { destruct (b =? 48) eqn:E; [|auto]. apply Z.eqb_eq in E.
    destruct t as [|c t']; [left; reflexivity|]. simpl hd.
    destruct (isxboDigitStart c) eqn:E2; [|auto]. right; right. eauto. }
  assert (HDec : (b =? 48) && isxboDigitStart (hd 32 t) = false ->
     bodyOk X s l pre (b :: t) (scanDecimal X (offset l) l)).
  { intros HF.
    assert (HL : lexNum X (b :: t) = numSuf X (length (b :: t)) INT (b :: t)).
    { unfold lexNum. simpl hd. simpl tl. destruct (b =? 48) eqn:E; auto. simpl in HF.
      unfold isxboDigitStart in HF. rewrite !orb_false_iff in HF.
      rewrite !(hd_eqb t) in HF by lia. destruct HF as [[HF1 HF2] HF3]; rewrite HF1, HF2, HF3. reflexivity. }
    unfold scanDecimal.
    destruct (numberLoop_at X s (loopFuel l) (length (b :: t)) INT l pre (b :: t) A G (at_len _ _ _ _ A) (le_n _))
      as (l' & r & H1 & H2 & H3 & H4 & H5 & H6).
    rewrite H1. cbn [rbind]. rewrite (at_off _ _ _ _ A), (at_gslice _ _ _ _ _ H3). cbn [rbind].
    eapply body_done; eauto.
    unfold lexOne. rewrite Hnid, H, HL.
    destruct (numSuf X (length (b :: t)) INT (b :: t)) as [tk a]. reflexivity. }
  destruct HD as [HF|[[_ HF]|(-> & c & t' & -> & HX)]].
  1,2: rewrite HF; auto.
  clear HDec. simpl hd. rewrite HX. change (48 =? 48) with true. cbn [andb].
  pose proof (good_tail 48 (c :: t') G ltac:(lia)) as G1.
  assert (Hc : c < 128) by (destruct (xbo_cases _ HX) as [|[|]]; lia).
  pose proof (rune_ascii c t' G1 Hc) as R1.
  destruct (next_at _ _ _ _ _ _ _ A R) as (A1 & C1 & S1).
  rewrite (rune_hdR _ _ _ _ R1) in C1. rewrite C1.
  destruct (next_at _ _ _ _ _ _ _ A1 R1) as (A2 & C2 & S2).
  pose proof (good_tail c t' G1 Hc) as G2.
  assert (HB : forall cond pfx, uniform cond -> cond (-1) = false -> pfx = [48; c] ->
    lexNum X (48 :: c :: t') = (INT, 48 :: c :: takeB cond t') ->
    bodyOk X s l pre (48 :: c :: t') (scanBaseDigits cond pfx (next (next l)))).
  { intros cond pfx HU Hm -> HL. unfold scanBaseDigits.
    destruct (loop_text cond s (next (next l)) _ t' HU Hm A2 G2) as (l' & H1 & H2 & H3 & H4 & H5).
    rewrite H1. cbn [rbind]. rewrite H2. cbn [rbind].
    eapply (body_done X s l pre _ _ (48 :: c :: takeB cond t')).
    - unfold lexOne. rewrite Hnid, H, HL. reflexivity.
    - simpl. now rewrite take_drop.
    - rewrite <- !app_assoc in H3. exact H3.
    - exact H4.
    - eapply same_trans; [exact S1|]. eapply same_trans; [exact S2|]. exact H5. }
  destruct (xbo_cases _ HX) as [-> | [-> | ->]].
  - change (120 =? 120) with true. cbn match. apply HB; auto using unif_hex.
  - change (98 =? 120) with false. change (98 =? 98) with true. cbn match. apply HB; auto using unif_binary.
  - change (111 =? 120) with false. change (111 =? 98) with false. change (111 =? 111) with true. cbn match.
    apply HB; auto using unif_octal.
Qed.

Lemma punct_lt : forall c tk, punct c = Some tk -> 0 <= c < 128.
Proof.
  intros c tk. unfold punct.
  repeat match goal with
  | |- (if ?x =? ?k then _ else _) = _ -> _ => destruct (Z.eqb_spec x k); [intros _; lia|]
  end. discriminate.
Qed.

Lemma high_illegal : forall X c l, 128 <= c -> scanDefault X c l = Ok (ILLEGAL, encodeRune c, l).
Proof.
  intros X c l H. unfold scanDefault.
  destruct (punct c) eqn:E; [apply punct_lt in E; lia|].
  unfold EOFch.
  repeat match goal with
  | |- context [c =? ?k] => replace (c =? k) with false by (symmetry; apply Z.eqb_neq; lia)
  end. reflexivity.
Qed.

Lemma default_at : forall X s l pre b t, At s l pre (b :: t) -> Good (b :: t) ->
  isIdentifierStart b = false -> isDigit b = false -> bodyOk X s l pre (b :: t) (scanBody X l).
Proof.
  intros X s l pre b t A G Hnid Hnd.
  pose proof (good_nn _ _ G) as Hbb.
  destruct (Z_lt_ge_dec b 128) as [Hb|Hb].
  2:{ destruct (rune_high b t G ltac:(lia)) as (r & cs & t' & R & Hr).
      assert (C : chr l = r) by (rewrite (chr_at _ _ _ _ A) by congruence; apply (rune_hdR _ _ _ _ R)).
      assert (Hrid : isIdentifierStart r = false) by (unfold isIdentifierStart; rewrite !orb_false_iff, !andb_false_iff, !Z.leb_gt, !Z.eqb_neq; lia).
      assert (Hrd : isDigit r = false) by (unfold isDigit; rewrite !andb_false_iff, !Z.leb_gt; lia).
      unfold scanBody. rewrite C, Hrid, Hrd, high_illegal by auto.
      destruct (next_at _ _ _ _ _ _ _ A R) as (A1 & C1 & S1).
      pose proof (rune_decode _ _ _ _ R) as Hd.
      eapply (body_done X s l pre (b :: t) _ cs); eauto.
      - unfold lexOne. rewrite Hnid, Hnd.
        destruct (punct b) eqn:E; [apply punct_lt in E; lia|].
        repeat match goal with
        | |- context [b =? ?k] => replace (b =? k) with false by (symmetry; apply Z.eqb_neq; lia)
        end.
        rewrite Hd. cbn [snd]. rewrite Nat2Z.id.
        rewrite (ru_split _ _ _ _ R), firstn_len_app, (ru_enc _ _ _ _ R). reflexivity.
      - apply (ru_split _ _ _ _ R).
      - apply (ru_good _ _ _ _ R). }
  pose proof (rune_ascii b t G ltac:(lia)) as R.
  assert (C : chr l = b) by (rewrite (chr_at _ _ _ _ A) by congruence; apply (rune_hdR _ _ _ _ R)).
  destruct (next_at _ _ _ _ _ _ _ A R) as (A1 & C1 & S1).
  pose proof (good_tail b t G Hb) as G1.
  pose proof (encode_ascii b ltac:(lia)) as HE.
  unfold scanBody. rewrite C, Hnid, Hnd. unfold scanDefault. clear C.
  destruct (punct b) as [tk|] eqn:EP.
  { apply (body_done X s l pre (b :: t) _ [b] _ (next l) t); [|reflexivity|exact A1|exact G1|exact S1].
    unfold lexOne. rewrite Hnid, Hnd, EP, HE. reflexivity. }
  destruct (b =? 59) eqn:E59.
  { apply Z.eqb_eq in E59. unfold scanComment.
    destruct (loop_text notNl s (next l) _ t unif_notNl eq_refl A1 G1) as (l' & H1 & H2 & H3 & H4 & H5).
    change (fun c : Z => (0 <=? c) && negb (c =? 10)) with notNl.
    rewrite H1. cbn [rbind]. rewrite H2. cbn [rbind].
    eapply (body_done X s l pre (b :: t) _ (b :: takeB notNl t)).
    - unfold lexOne. rewrite Hnid, Hnd, EP. subst b. reflexivity.
    - simpl. now rewrite take_drop.
    - rewrite <- app_assoc in H3. exact H3.
    - exact H4.
    - eapply same_trans; eauto. }
  destruct (b =? 61) eqn:E61.
  { apply Z.eqb_eq in E61. rewrite C1, hdR_eqb by (auto; lia).
    destruct (hd 0 t =? 62) eqn:E62.
    - destruct (hd_cons t 62 ltac:(lia) E62) as (t' & ->).
      pose proof (rune_ascii 62 t' G1 ltac:(lia)) as R1.
      destruct (next_at _ _ _ _ _ _ _ A1 R1) as (A2 & C2 & S2).
      eapply (body_done X s l pre (b :: 62 :: t') _ [61; 62] _ (next (next l)) t').
      + unfold lexOne. rewrite Hnid, Hnd, EP, E59. subst b. reflexivity.
      + now subst b.
      + rewrite <- app_assoc in A2. subst b. exact A2.
      + apply (ru_good _ _ _ _ R1).
      + eapply same_trans; eauto.
    - apply (body_done X s l pre (b :: t) _ [b] _ (next l) t); [|reflexivity|exact A1|exact G1|exact S1].
      unfold lexOne. rewrite Hnid, Hnd, EP, E59, E62, HE. subst b. reflexivity. }
  destruct (b =? 47) eqn:E47.
  { apply Z.eqb_eq in E47. rewrite C1, !hdR_eqb by (auto; lia).
    destruct (hd 0 t =? 61) eqn:E1.
    { destruct (hd_cons t 61 ltac:(lia) E1) as (t' & ->).
      pose proof (rune_ascii 61 t' G1 ltac:(lia)) as R1.
      destruct (next_at _ _ _ _ _ _ _ A1 R1) as (A2 & C2 & S2).
      eapply (body_done X s l pre (b :: 61 :: t') _ [47; 61] _ (next (next l)) t').
      + unfold lexOne. rewrite Hnid, Hnd, EP, E59, E61. subst b. reflexivity.
      + now subst b.
      + rewrite <- app_assoc in A2. subst b. exact A2.
      + apply (ru_good _ _ _ _ R1).
      + eapply same_trans; eauto. }
    destruct (hd 0 t =? 47) eqn:E2.
    - destruct (hd_cons t 47 ltac:(lia) E2) as (t' & ->).
      pose proof (rune_ascii 47 t' G1 ltac:(lia)) as R1.
      destruct (next_at _ _ _ _ _ _ _ A1 R1) as (A2 & C2 & S2).
      rewrite (peek_at _ _ _ _ A1 G1) by congruence. rewrite peekB_ascii by lia. rewrite hd_eqb by lia.
      pose proof (ru_good _ _ _ _ R1) as G2. cbn [andb].
      destruct (hd 0 t' =? 61) eqn:E3.
      + destruct (hd_cons t' 61 ltac:(lia) E3) as (t'' & ->).
        pose proof (rune_ascii 61 t'' G2 ltac:(lia)) as R2.
        destruct (next_at _ _ _ _ _ _ _ A2 R2) as (A3 & C3 & S3).
        eapply (body_done X s l pre (b :: 47 :: 61 :: t'') _ [47; 47; 61] _ (next (next (next l))) t'').
        * unfold lexOne. rewrite Hnid, Hnd, EP, E59, E61. subst b. reflexivity.
        * now subst b.
        * rewrite <- !app_assoc in A3. subst b. exact A3.
        * apply (ru_good _ _ _ _ R2).
        * eapply same_trans; [exact S1|]. eapply same_trans; eauto.
      + eapply (body_done X s l pre (b :: 47 :: t') _ [47; 47] _ (next (next l)) t').
        * unfold lexOne. rewrite Hnid, Hnd, EP, E59, E61. subst b. unfold lexSlash. cbn [hd tl].
          rewrite E3. reflexivity.
        * now subst b.
        * rewrite <- app_assoc in A2. subst b. exact A2.
        * exact G2.
        * eapply same_trans; eauto.
    - cbn [andb]. apply (body_done X s l pre (b :: t) _ [b] _ (next l) t); [|reflexivity|exact A1|exact G1|exact S1].
      unfold lexOne. rewrite Hnid, Hnd, EP, E59, E61, HE. subst b. unfold lexSlash. rewrite E1, E2. reflexivity. }
  destruct (b =? 46) eqn:E46.
  { apply Z.eqb_eq in E46. rewrite C1, !hdR_eqb by (auto; lia).
    destruct (hd 0 t =? 46) eqn:E2.
    - destruct (hd_cons t 46 ltac:(lia) E2) as (t' & ->).
      pose proof (rune_ascii 46 t' G1 ltac:(lia)) as R1.
      destruct (next_at _ _ _ _ _ _ _ A1 R1) as (A2 & C2 & S2).
      rewrite (peek_at _ _ _ _ A1 G1) by congruence. rewrite peekB_ascii by lia. rewrite hd_eqb by lia.
      pose proof (ru_good _ _ _ _ R1) as G2. cbn [andb].
      destruct (hd 0 t' =? 46) eqn:E3.
      + destruct (hd_cons t' 46 ltac:(lia) E3) as (t'' & ->).
        pose proof (rune_ascii 46 t'' G2 ltac:(lia)) as R2.
        destruct (next_at _ _ _ _ _ _ _ A2 R2) as (A3 & C3 & S3).
        eapply (body_done X s l pre (b :: 46 :: 46 :: t'') _ [46; 46; 46] _ (next (next (next l))) t'').
        * unfold lexOne. rewrite Hnid, Hnd, EP, E59, E61, E47. subst b. reflexivity.
        * now subst b.
        * rewrite <- !app_assoc in A3. subst b. exact A3.
        * apply (ru_good _ _ _ _ R2).
        * eapply same_trans; [exact S1|]. eapply same_trans; eauto.
      + eapply (body_done X s l pre (b :: 46 :: t') _ [46; 46] _ (next (next l)) t').
        * unfold lexOne. rewrite Hnid, Hnd, EP, E59, E61, E47. subst b. unfold lexDot. cbn [hd tl].
          rewrite E3. reflexivity.
        * now subst b.
        * rewrite <- app_assoc in A2. subst b. exact A2.
        * exact G2.
        * eapply same_trans; eauto.
    - cbn [andb]. destruct (uniIsLetter X (hdR t)) eqn:EL.
      + unfold scanControlOp.
        destruct (loop_text isLetter s (next l) _ t unif_letter eq_refl A1 G1) as (l' & H1 & H2 & H3 & H4 & H5).
        rewrite H1. cbn [rbind]. rewrite H2. cbn [rbind]. rewrite HE.
        eapply (body_done X s l pre (b :: t) _ (b :: takeB isLetter t)).
        * unfold lexOne. rewrite Hnid, Hnd, EP, E59, E61, E47. subst b. unfold lexDot. rewrite E2, EL. reflexivity.
        * simpl. now rewrite take_drop.
        * rewrite <- app_assoc in H3. exact H3.
        * exact H4.
        * eapply same_trans; eauto.
      + apply (body_done X s l pre (b :: t) _ [b] _ (next l) t); [|reflexivity|exact A1|exact G1|exact S1].
        unfold lexOne. rewrite Hnid, Hnd, EP, E59, E61, E47, HE. subst b. unfold lexDot. rewrite E2, EL. reflexivity. }
  destruct (b =? 34) eqn:E34.
  { apply Z.eqb_eq in E34. unfold scanString.
    destruct (stringLoop_at s (loopFuel (next l)) (next l) (pre ++ [b]) t A1 G1 (at_len _ _ _ _ A1)) as (l' & H1 & H2).
    rewrite H1. cbn [rbind]. pose proof (take_drop inStr t) as TD.
    destruct (hd 0 (dropB inStr t) =? 34) eqn:EH.
    - destruct (hd_cons _ 34 ltac:(lia) EH) as (t' & ET). rewrite ET in *. cbn [tl] in H2.
      destruct H2 as (B1 & B2 & B3).
      assert (HS : gslice (src l') (offset (next l)) (offset l' - 1) = Ok (takeB inStr t)).
      { rewrite (at_off _ _ _ _ A1), (at_off _ _ _ _ B1), (at_src _ _ _ _ B1), (at_split _ _ _ _ B1).
        rewrite !zlen_app. change (zlen [34]) with 1.
        replace (zlen pre + zlen [b] + (zlen (takeB inStr t) + 1) - 1)
          with (zlen pre + zlen [b] + zlen (takeB inStr t)) by lia.
        rewrite <- zlen_app. rewrite <- !app_assoc. rewrite app_assoc. apply gslice_mid. }
      rewrite HS. cbn [rbind].
      eapply (body_done X s l pre (b :: t) _ (34 :: takeB inStr t ++ [34])).
      + unfold lexOne. rewrite Hnid, Hnd, EP, E59, E61, E47, E46. subst b. rewrite ET. reflexivity.
      + subst b. simpl. rewrite <- app_assoc. simpl. now rewrite <- TD at 1.
      + rewrite <- app_assoc in B1. subst b. exact B1.
      + exact B2.
      + eapply same_trans; eauto.
    - cbn zeta in H2. destruct H2 as (B1 & B2 & B3 & B4 & B5 & B6).
      assert (Eoff : offset (next l) = zlen (pre ++ [b])) by apply (at_off _ _ _ _ A1).
      assert (Eoff2 : offset l' = zlen (pre ++ [b]) + zlen (takeB inStr t))
        by (rewrite (at_off _ _ _ _ B1); apply zlen_app).
      rewrite Eoff, Eoff2.
      assert (LO : lexOne X (b :: t) = match takeB inStr t with [] => None
              | _ => Some (TEXT_LITERAL, 34 :: takeB inStr t, removelast (takeB inStr t), true) end).
      { unfold lexOne. rewrite Hnid, Hnd, EP, E59, E61, E47, E46. subst b. rewrite EH. reflexivity. }
      unfold bodyOk. rewrite LO.
      destruct (takeB inStr t) as [|a0 a] eqn:ET.
      + change (zlen (@nil Z)) with 0.
        assert (HP : forall q z, gslice q z (z + 0 - 1) = Panic).
        { intros. unfold gslice. replace (z <=? z + 0 - 1) with false by (symmetry; apply Z.leb_gt; lia).
          rewrite andb_false_r. reflexivity. }
        rewrite HP. reflexivity.
      + assert (HL : exists x, a0 :: a = removelast (a0 :: a) ++ [x]).
        { exists (last (a0 :: a) 0). apply app_removelast_last. congruence. }
        destruct HL as (x & HL). set (rl := removelast (a0 :: a)) in *.
        assert (HS : gslice (src l') (zlen (pre ++ [b])) (zlen (pre ++ [b]) + zlen (a0 :: a) - 1) = Ok rl).
        { rewrite (at_src _ _ _ _ B1), (at_split _ _ _ _ B1), HL.
          rewrite (zlen_app rl). change (zlen [x]) with 1.
          replace (zlen (pre ++ [b]) + (zlen rl + 1) - 1) with (zlen (pre ++ [b]) + zlen rl) by lia.
          rewrite <- !app_assoc. rewrite app_assoc. apply gslice_mid. }
        rewrite HS. cbn [rbind]. exists l', (dropB inStr t).
        split; [reflexivity|]. split; [subst b; simpl; f_equal; exact (eq_sym TD)|].
        split; [rewrite <- app_assoc in B1; subst b; exact B1|]. split; [exact B2|].
        destruct S1 as [T1 T2 T3 T4]. split; [congruence|]. split.
        * rewrite B6, T3. rewrite <- app_assoc. subst b. reflexivity.
        * congruence. }
  replace (b =? EOFch) with false by (symmetry; apply Z.eqb_neq; unfold EOFch; lia).
  apply (body_done X s l pre (b :: t) _ [b] _ (next l) t); [|reflexivity|exact A1|exact G1|exact S1].
  unfold lexOne. rewrite Hnid, Hnd, EP, E59, E61, E47, E46, E34. rewrite decode_ascii by lia. rewrite HE. reflexivity.
Qed.

Lemma body_at : forall X s l pre suf, At s l pre suf -> Good suf ->
  (suf = [] -> chr l = -1) -> bodyOk X s l pre suf (scanBody X l).
Proof.
  intros X s l pre suf A G HC. destruct suf as [|b t].
  - specialize (HC eq_refl). unfold scanBody. rewrite HC. cbn [isIdentifierStart isDigit].
    change (isIdentifierStart (-1)) with false. change (isDigit (-1)) with false.
    change (scanDefault X (-1) (next l)) with (Ok (EOF, @nil Z, next l)).
    destruct (next_end _ _ _ A) as (A1 & _ & S1).
    apply (body_done X s l pre [] _ [] _ (next l) []); [reflexivity|reflexivity|rewrite app_nil_r; exact A1|exact G|exact S1].
  - destruct (isIdentifierStart b) eqn:E1; [apply ident_at; auto|].
    destruct (isDigit b) eqn:E2; [apply number_at; auto|].
    apply default_at; auto.
Qed.

(** No token text contains a newline. *)
Lemma notNl_take : forall p s, (p 10 = false) -> Forall (fun c => c <> 10) (takeB p s).
Proof.
  intros p s H. induction s; simpl; auto. destruct (p a) eqn:E; auto.
  constructor; auto. intros ->. congruence.
Qed.

Lemma numSuf_noNl : forall X m tok suf, Good suf -> Forall (fun c => c <> 10) (snd (numSuf X m tok suf)).
Proof.
  intros X. induction m; intros tok suf G; simpl; auto.
  destruct (numCond X suf) eqn:E; simpl; auto.
  assert (Hne : suf <> []) by (intros ->; discriminate).
  destruct (good_rune _ G Hne) as (r & cs & t & R). pose proof (rune_decode _ _ _ _ R) as Hd.
  rewrite Hd. cbn [snd]. rewrite Nat2Z.id.
  assert (F1 : firstn (length cs) suf = cs) by (rewrite (ru_split _ _ _ _ R); apply firstn_len_app).
  assert (F2 : skipn (length cs) suf = t) by (rewrite (ru_split _ _ _ _ R); apply skipn_len_app).
  rewrite F1, F2.
  specialize (IHm (if loneDot t then FLOAT else tok) t (ru_good _ _ _ _ R)).
  destruct (numSuf X m _ t) as [tk a]. cbn [snd] in *. apply Forall_app. split; auto.
  destruct (ru_case _ _ _ _ R) as [[Hr Hcs]|[Hr Hc]]; [rewrite Hcs|].
  - constructor; auto. intros ->. unfold numCond in E. destruct suf; [congruence|].
    rewrite (rune_hdR _ _ _ _ R) in E. simpl in E. discriminate.
  - eapply Forall_impl; [|exact Hc]. simpl. lia.
Qed.

Lemma some_text : forall (a a' : token) (b b' c c' : bytes) (d d' : bool),
  Some (a, b, c, d) = Some (a', b', c', d') -> b = b'.
Proof. congruence. Qed.

Lemma lexOne_noNl : forall X suf tk text lit er, Good suf -> (forall t, suf <> 10 :: t) ->
  lexOne X suf = Some (tk, text, lit, er) -> Forall (fun c => c <> 10) text.
Proof.
  intros X suf tk text lit er G H10 H. destruct suf as [|b t].
  - inversion H; subst; auto.
  - assert (Hb : b <> 10) by (intros ->; apply (H10 t); reflexivity).
    unfold lexOne in H. destruct (isIdentifierStart b).
    { inversion H; subst. apply (notNl_take isIdentifierBodyChar (b :: t)); reflexivity. }
    destruct (isDigit b).
    { destruct (lexNum X (b :: t)) as [tk' a] eqn:E. inversion H; subst. unfold lexNum in E.
      pose proof (numSuf_noNl X (length (b :: t)) INT (b :: t) G) as HN.
      repeat match type of E with
      | (if ?c then _ else _) = _ => let Q := fresh "Q" in destruct c eqn:Q
      end; try (rewrite E in HN; exact HN); inversion E; subst.
      all: constructor; [lia|]; constructor;
        [match goal with Q : (hd 0 (tl (_ :: _)) =? _) = true |- _ =>
           cbn [tl] in Q; apply Z.eqb_eq in Q; lia end|].
      all: apply notNl_take; reflexivity. }
    destruct (punct b).
    { inversion H; subst. repeat constructor; auto. }
    destruct (b =? 59).
    { inversion H; subst. constructor; auto. apply notNl_take; reflexivity. }
    destruct (b =? 61).
    { destruct (hd 0 t =? 62); inversion H; subst; repeat constructor; lia. }
    destruct (b =? 47).
    { unfold lexSlash in H. destruct (hd 0 t =? 61); [|destruct (hd 0 t =? 47); [destruct (hd 0 (tl t) =? 61)|]];
      inversion H; subst; repeat constructor; lia. }
    destruct (b =? 46).
    { unfold lexDot in H. destruct (hd 0 t =? 46); [destruct (hd 0 (tl t) =? 46)|destruct (uniIsLetter X (hdR t))];
      apply some_text in H; subst text; repeat constructor; try lia. apply notNl_take; reflexivity. }
    destruct (b =? 34).
    { destruct (hd 0 (dropB inStr t) =? 34).
      - inversion H; subst. constructor; [lia|]. apply Forall_app. split; [apply notNl_take; reflexivity|repeat constructor; lia].
      - destruct (takeB inStr t) eqn:E; [discriminate|]. inversion H; subst. constructor; [lia|].
        rewrite <- E. apply notNl_take; reflexivity. }
    destruct (good_rune _ G ltac:(congruence)) as (r & cs & t' & R). pose proof (rune_decode _ _ _ _ R) as Hd.
    rewrite Hd in H. cbn [snd] in H. rewrite Nat2Z.id in H.
    rewrite (ru_split _ _ _ _ R), firstn_len_app in H. inversion H; subst.
    destruct (ru_case _ _ _ _ R) as [[Hr Hc]|[Hr Hc]].
    + pose proof (ru_split _ _ _ _ R) as Hs. rewrite Hc in *. simpl in Hs. inversion Hs; subst.
      repeat constructor; auto.
    + eapply Forall_impl; [|exact Hc]. simpl. lia.
Qed.

Lemma dropB_space_hd : forall suf t, dropB isSpace suf <> 10 :: t.
Proof. intros suf t H. apply dropB_hd in H. discriminate. Qed.

(** One call of Scan: blanks are skipped, then [lexOne] decides. *)
Theorem scan_at : forall X s l pre suf, At s l pre suf -> Good suf -> lineOffsets l = linesOf pre ->
  let ws := takeB isSpace suf in
  let suf1 := dropB isSpace suf in
  match lexOne X suf1 with
  | None => scan X l = Panic
  | Some (tk, text, lit, er) =>
    exists l' rest, 
      scan X l = Ok (mkTok tk (mkPos [] (zlen (pre ++ ws)) (1 + newlines (pre ++ ws))
                                     (1 + sinceNewline (pre ++ ws) 0)) lit, l') /\
      suf1 = text ++ rest /\ At s l' (pre ++ ws ++ text) rest /\ Good rest /\
      lineOffsets l' = linesOf (pre ++ ws ++ text) /\
      errors l' = errors l ++ (if er then [mkLexError (zlen (pre ++ ws ++ text)) msgNewline] else []) /\
      errCount l' = errCount l + (if er then 1 else 0)
  end.
Proof.
  intros X s l pre suf A G HL ws suf1.
  destruct (skip_at s (loopFuel l) l pre suf A G (at_len _ _ _ _ A) HL)
    as (l1 & H1 & H2 & H3 & H4 & H5 & H6).
  fold ws in H2, H5. fold suf1 in H2, H3, H6.
  assert (HB : bodyOk X s l1 (pre ++ ws) suf1 (scanBody X l1)).
  { apply body_at; auto. intros E. rewrite E in H6. exact H6. }
  rewrite scan_unfold, H1. cbn [rbind]. unfold bodyOk in HB.
  destruct (lexOne X suf1) as [[[[tk text] lit] er]|] eqn:E.
  - destruct HB as (l' & rest & B1 & B2 & B3 & B4 & B5 & B6 & B7).
    exists l', rest. rewrite B1. cbn [rbind]. rewrite (at_off _ _ _ _ H2). rewrite B5 at 1 2. rewrite H5, scan_pos.
    split; [reflexivity|]. split; [exact B2|]. rewrite <- app_assoc in B3, B6. split; [exact B3|].
    split; [exact B4|]. split.
    + rewrite B5, H5, app_assoc. symmetry. apply linesOf_app.
      eapply (lexOne_noNl X suf1); eauto. intros t Ht. apply (dropB_space_hd suf t). exact Ht.
    + destruct H4 as [_ S2 S3]. rewrite <- S2, <- S3. split; [exact B6|exact B7].
  - rewrite HB. reflexivity.
Qed.
