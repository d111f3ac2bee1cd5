(** The parser's view of the lexer: a list of tokens ended by EOF for ever, or
    by a panic. *)
From Coq Require Import String.
From Verif Require Import Base Utf8 Token Ext Lexer LexSpec LexSpec2 LexerProofs LexOne LexSeq LexHang
  Strconv Ast Env Diag Parser ParseSpec.
Open Scope string_scope.
Open Scope list_scope.
Open Scope Z_scope.

Inductive fin : Type := FEof (t : tokInfo) | FPanic.

Definition eofOf (f : fin) : tokInfo := match f with FEof t => t | FPanic => zeroTok end.

(** [Str X l ts f]: scanning from [l] gives [ts], then ends as [f] says. *)
Inductive Str (X : Ext) : lexer -> list tokInfo -> fin -> Prop :=
| Str_tok : forall l t l' ts f, scan X l = Ok (t, l') -> tTok t <> EOF -> Str X l' ts f ->
    Str X l (t :: ts) f
| Str_panic : forall l, scan X l = Panic -> Str X l [] FPanic
| Str_eof : forall l t, tTok t = EOF -> (forall n, exists l', scans X n l = Ok (repeat t n, l')) ->
    Str X l [] (FEof t).

(** The parser stands on the first token of [ts] (or on EOF when [ts] is empty). *)
Record Toks (X : Ext) (p : parser) (ts : list tokInfo) (f : fin) : Prop := mkToks {
  tk_cur : cur p = nth 0 ts (eofOf f);
  tk_pk : pk p = nth 1 ts (eofOf f);
  tk_str : Str X (lx p) (skipn 2 ts) f;
  tk_pan : f = FPanic -> (2 <= length ts)%nat;
  tk_ne : Forall (fun t => tTok t <> EOF) ts;
  tk_eof : f <> FPanic -> tTok (eofOf f) = EOF
}.

(** Everything in the parser except its place in the token stream. *)
Definition same (p q : parser) : Prop := perrors p = perrors q /\ env p = env q /\ tasks p = tasks q.

Lemma same_refl : forall p, same p p.
Proof. repeat split. Qed.
Lemma same_trans : forall p q r, same p q -> same q r -> same p r.
Proof. unfold same; intuition congruence. Qed.

Lemma str_eof_next : forall X l t, Str X l [] (FEof t) -> exists l', scan X l = Ok (t, l') /\ Str X l' [] (FEof t).
Proof.
  intros X l t H. inversion H as [| |? ? E HN]; subst.
  destruct (HN 1%nat) as [l' Q]. simpl in Q.
  destruct (scan X l) as [[t' l1]| | |] eqn:ES; try discriminate. cbn [rbind] in Q. inversion Q; subst.
  exists l'. split; auto. constructor; auto. intros n. destruct (HN (S n)) as [l2 Q2]. simpl in Q2.
  rewrite ES in Q2. cbn [rbind] in Q2. destruct (scans X n l') as [[ts l3]| | |]; try discriminate.
  cbn [rbind] in Q2. inversion Q2; subst. eauto.
Qed.

(** One [next]. *)
Lemma pnext_toks : forall X p ts f, Toks X p ts f ->
  (f = FPanic /\ length ts = 2%nat /\ pnext X p = Panic) \/
  exists p', pnext X p = Ok p' /\ Toks X p' (tl ts) f /\ same p' p.
Proof.
  intros X p ts f [H1 H2 H3 H4 H5 H6]. unfold pnext.
  inversion H3 as [l t l' ts' f' HS HE HR E0 E1 E2|l HS E0 E1 E2|l t HE HN E0 E1 E2]; subst.
  - right. rewrite HS. cbn [rbind]. eexists. split; [reflexivity|].
    destruct ts as [|a [|b [|c ts]]]; simpl in E1; try discriminate. inversion E1; subst.
    split; [|repeat split]. split; simpl; auto.
    + lia.
    + now inversion H5.
  - left. rewrite HS. split; auto. split; auto. destruct ts as [|a [|b [|c ts]]]; simpl in E1; try discriminate.
    all: specialize (H4 eq_refl); simpl in *; auto; lia.
  - right. destruct (str_eof_next X (lx p) t) as (l' & Q1 & Q2); [constructor; auto|].
    rewrite Q1. cbn [rbind]. eexists. split; [reflexivity|].
    assert (HL : (length ts <= 2)%nat) by (destruct ts as [|a [|b [|c ts]]]; simpl in *; try discriminate; lia).
    split; [|repeat split]. split; simpl; auto.
    + rewrite H2. destruct ts as [|a [|b ts]]; reflexivity.
    + destruct ts as [|a [|b [|c ts]]]; simpl in *; try discriminate; auto.
    + destruct ts as [|a [|b [|c ts]]]; simpl in *; try discriminate; auto.
    + discriminate.
    + destruct ts; simpl; auto. now inversion H5.
Qed.

Lemma pnext_ok : forall X p ts f p', Toks X p ts f -> pnext X p = Ok p' -> Toks X p' (tl ts) f /\ same p' p.
Proof.
  intros X p ts f p' H E. destruct (pnext_toks _ _ _ _ H) as [(_ & _ & Q)|(q & Q & H1 & H2)]; rewrite Q in E; try discriminate.
  inversion E; subst; auto.
Qed.

Lemma pnext_eof : forall X p ts t, Toks X p ts (FEof t) ->
  exists p', pnext X p = Ok p' /\ Toks X p' (tl ts) (FEof t) /\ same p' p.
Proof. intros X p ts t H. destruct (pnext_toks _ _ _ _ H) as [(Q & _)|Q]; [discriminate|auto]. Qed.

Lemma toks_cur : forall X p t ts f, Toks X p (t :: ts) f -> cur p = t.
Proof. intros X p t ts f H. apply (tk_cur _ _ _ _ H). Qed.

Lemma toks_nil : forall X p f, Toks X p [] f -> exists t, f = FEof t /\ tTok t = EOF /\ cur p = t /\ pk p = t.
Proof.
  intros X p f [H1 H2 H3 H4 H5 H6]. destruct f as [t|].
  - exists t. split; auto. split; [apply H6; discriminate|]. auto.
  - specialize (H4 eq_refl). simpl in H4; lia.
Qed.

Lemma toks_curr_eof : forall X p ts f, Toks X p ts f -> (curr p = EOF <-> ts = []).
Proof.
  intros X p ts f H. split.
  - intros E. destruct ts as [|t ts]; auto. unfold curr in E. rewrite (toks_cur _ _ _ _ _ H) in E.
    pose proof (tk_ne _ _ _ _ H) as F. inversion F; subst. congruence.
  - intros ->. destruct (toks_nil _ _ _ H) as (t & _ & E & C & _). unfold curr. congruence.
Qed.

Lemma toks_cons : forall X p ts f, Toks X p ts f -> curr p <> EOF -> exists ts', ts = cur p :: ts'.
Proof.
  intros X p ts f H E. destruct ts as [|t ts'].
  - exfalso. apply E. apply (toks_curr_eof _ _ _ _ H). auto.
  - exists ts'. f_equal. symmetry. eapply toks_cur; eauto.
Qed.

(** The next token is the head of the rest of the stream. *)
Lemma toks_pk : forall X p t ts f, Toks X p (t :: ts) f -> pk p = hd (eofOf f) ts.
Proof. intros X p t ts f H. rewrite (tk_pk _ _ _ _ H). destruct ts; reflexivity. Qed.

Lemma toks_pk_cons : forall X p t ts f, Toks X p (t :: ts) f -> peekTok p <> EOF -> exists ts', ts = pk p :: ts'.
Proof.
  intros X p t ts f H E. rewrite (toks_pk _ _ _ _ _ H). destruct ts as [|a ts]; [|simpl; eauto].
  exfalso. apply E. unfold peekTok. rewrite (toks_pk _ _ _ _ _ H). simpl.
  apply (tk_eof _ _ _ _ H). intros ->. pose proof (tk_pan _ _ _ _ H eq_refl). simpl in *; lia.
Qed.

Lemma toks_addTask : forall X p ts f t, Toks X p ts f -> Toks X (addTask p t) ts f.
Proof. intros X p ts f t [H1 H2 H3 H4 H5 H6]. split; auto. Qed.
Lemma toks_addDiag : forall X p ts f t, Toks X p ts f -> Toks X (addDiag p t) ts f.
Proof. intros X p ts f t [H1 H2 H3 H4 H5 H6]. split; auto. Qed.
Lemma toks_setEnv : forall X p ts f t, Toks X p ts f -> Toks X (setEnv p t) ts f.
Proof. intros X p ts f t [H1 H2 H3 H4 H5 H6]. split; auto. Qed.
Lemma toks_handle : forall X p ts f t, Toks X p ts f -> Toks X (handle p t) ts f.
Proof. intros X p ts f [t|] H; [apply toks_addDiag|]; auto. Qed.

(** * Where streams come from *)

Lemma end_str : forall X s l, St s l (length s) -> Str X l [] (FEof (mkTok EOF (posAt s (length s)) [])).
Proof.
  intros X s l HS. constructor; auto. intros n. revert l HS. induction n; intros l HS; [simpl; eauto|].
  pose proof (scan_step X s l (length s) HS) as Q. cbn zeta in Q. rewrite skipn_all in Q.
  cbn [takeB dropB lexOne] in Q. destruct Q as (l' & rest & _ & _ & Q3 & Q4 & _).
  simpl length in *. rewrite !Nat.add_0_r in *. destruct (IHn l' Q4) as [l2 Q5].
  simpl. rewrite Q3. cbn [rbind]. rewrite Q5. cbn [rbind]. eauto.
Qed.

(** Every state on a decodable source has a stream. *)
Lemma st_str : forall X s n l k, St s l k -> (length (skipn k s) < n)%nat ->
  exists ts f k', Str X l ts f /\ covers s k ts k' /\ Forall (fun t => tTok t <> EOF) ts /\
    (length ts + k <= length s)%nat /\
    match f with
    | FEof t => t = mkTok EOF (posAt s (length s)) [] /\ allBlank (skipn k' s)
    | FPanic => badQuote (dropB isSpace (skipn k' s))
    end.
Proof.
  intros X s. induction n; intros l k HS Hn; [lia|].
  destruct (scan_step_full X s l k HS) as [[B E]|(_ & g & tk & text & lit & rest & l1 & er & H1 & H2 & H3 & _ & H5 & H6 & _)].
  - exists [], FPanic, k. split; [constructor; auto|]. split; [constructor|]. split; [constructor|].
    split; [pose proof (st_le _ _ _ HS); simpl; lia|auto].
  - destruct (token_eq_dec tk EOF) as [->|NE].
    + destruct H3 as [(_ & -> & -> & ->)|[? _]]; [|congruence]. simpl app in H1. rewrite app_nil_r in H1.
      pose proof (f_equal (@length Z) H1) as HL. rewrite skipn_length in HL. pose proof (st_le _ _ _ HS).
      replace (k + length g + length (@nil Z))%nat with (length s) in H6 by (simpl; lia).
      replace (k + length g)%nat with (length s) in H5 by (simpl; lia).
      exists [], (FEof (mkTok EOF (posAt s (length s)) [])), k.
      split; [|split; [constructor|split; [constructor|]]].
      * pose proof (end_str X s l1 H6) as Q. inversion Q as [| |? ? QE QN]; subst. constructor; auto.
        intros m. destruct m as [|m]; [simpl; eauto|]. simpl. rewrite H5. cbn [rbind].
        destruct (QN m) as [l2 Q2]. rewrite Q2. cbn [rbind]. eauto.
      * split; [simpl; lia|]. split; auto. now rewrite H1.
    + destruct H3 as [[? _]|(_ & Hne & HT)]; [congruence|].
      pose proof (f_equal (@length Z) H1) as HL. rewrite !app_length in HL. rewrite skipn_length in HL, Hn.
      destruct text as [|c text]; [congruence|].
      destruct (IHn l1 _ H6) as (ts & f & k' & Q1 & Q2 & Q3 & Q4 & Q5).
      { rewrite skipn_length. simpl length in *. lia. }
      exists (mkTok tk (posAt s (k + length g)) lit :: ts), f, k'.
      split; [econstructor; eauto|]. split.
      * econstructor; eauto. right. repeat split; auto; apply HT.
      * split; [constructor; auto|]. split; [simpl length in *; lia|auto].
Qed.

Definition endOk (s : bytes) (k' : nat) (f : fin) : Prop :=
  match f with
  | FEof t => t = mkTok EOF (posAt s (length s)) [] /\ allBlank (skipn k' s)
  | FPanic => badQuote (dropB isSpace (skipn k' s))
  end.

Theorem new_str : forall X s, decodable s ->
  exists ts f k', Str X (newLexer s) ts f /\ covers s 0 ts k' /\ Forall (fun t => tTok t <> EOF) ts /\
    (length ts <= length s)%nat /\ endOk s k' f.
Proof.
  intros X s D. destruct (st_str X s _ _ 0 (newLexer_st s D) (Nat.lt_succ_diag_r _)) as (ts & f & k' & H1 & H2 & H3 & H4 & H5).
  exists ts, f, k'. split; auto. split; auto. split; auto. split; [lia|auto].
Qed.

Lemma str_ne : forall X l ts f, Str X l ts f -> Forall (fun t => tTok t <> EOF) ts.
Proof. intros X l ts f H. induction H; constructor; auto. Qed.
Lemma str_eofTok : forall X l ts t, Str X l ts (FEof t) -> tTok t = EOF.
Proof. intros X l ts t H. remember (FEof t) as f. induction H; inversion Heqf; subst; auto. Qed.

(** Streams are unique. *)
Lemma str_fun : forall X l ts f, Str X l ts f -> forall ts' f', Str X l ts' f' -> ts = ts' /\ f = f'.
Proof.
  assert (E : forall X l t, (forall n, exists l', scans X n l = Ok (repeat t n, l')) -> exists l', scan X l = Ok (t, l')).
  { intros X l t H. destruct (H 1%nat) as [l' Q]. simpl in Q.
    destruct (scan X l) as [[t' l1]| | |]; try discriminate. cbn [rbind] in Q. inversion Q; subst; eauto. }
  intros X l ts f H. induction H as [l t l' ts f HS HE HR IH|l HS|l t HE HN]; intros ts' f' H'.
  - inversion H' as [? t2 l2 ts2 ? Q1 Q2 Q3|? Q1|? t2 Q1 Q2]; subst.
    + rewrite HS in Q1. inversion Q1; subst. destruct (IH _ _ Q3); subst; auto.
    + congruence.
    + destruct (E _ _ _ Q2) as [l3 Q3]. rewrite HS in Q3. inversion Q3; subst; congruence.
  - inversion H' as [? t2 l2 ts2 ? Q1 Q2 Q3|? Q1|? t2 Q1 Q2]; subst; try congruence; auto.
    destruct (E _ _ _ Q2) as [l3 Q3]. congruence.
  - destruct (E _ _ _ HN) as [l3 Q3].
    inversion H' as [? t2 l2 ts2 ? Q1 Q2 Q4|? Q1|? t2 Q1 Q2]; subst; try congruence.
    destruct (E _ _ _ Q2) as [l4 Q5]. split; congruence.
Qed.

(** [NewParser] stands on the first token. *)
Lemma newParser_toks : forall X l e ts f, Str X l ts f ->
  (newParser X l e = Panic /\ f = FPanic /\ (length ts < 2)%nat) \/
  exists p l1 t1 t2, newParser X l e = Ok p /\ Toks X p ts f /\
    perrors p = [] /\ env p = e /\ tasks p = [] /\
    scan X l = Ok (t1, l1) /\ scan X l1 = Ok (t2, lx p).
Proof.
  intros X l e ts f H. pose proof (str_ne _ _ _ _ H) as HN. unfold newParser, pnext. cbn [lx pk perrors env tasks].
  inversion H as [l0 t l' ts' f' HS HE HR E0 E1 E2|l0 HS E0 E1 E2|l0 t HE HQ E0 E1 E2]; subst.
  - rewrite HS. cbn [rbind lx pk perrors env tasks].
    inversion HR as [l0 t0 l0' ts0 f0 HS0 HE0 HR0 E0 E1 E2|l0 HS0 E0 E1 E2|l0 t0 HE0 HQ0 E0 E1 E2]; subst.
    + rewrite HS0. cbn [rbind]. right. do 4 eexists. split; [reflexivity|].
      split; [|repeat split; eauto]. split; simpl; auto; [lia|].
      destruct f; [|congruence]. intros _. eapply str_eofTok; eauto.
    + rewrite HS0. left. simpl. auto.
    + destruct (str_eof_next _ _ _ HR) as (l2 & Q1 & Q2). rewrite Q1. cbn [rbind].
      right. do 4 eexists. split; [reflexivity|]. split; [|repeat split; eauto].
      split; simpl; auto. discriminate.
  - rewrite HS. left. simpl. auto with arith.
  - destruct (str_eof_next _ _ _ H) as (l2 & Q1 & Q2). rewrite Q1. cbn [rbind lx pk perrors env tasks].
    destruct (str_eof_next _ _ _ Q2) as (l3 & Q3 & Q4). rewrite Q3. cbn [rbind].
    right. do 4 eexists. split; [reflexivity|]. split; [|repeat split; eauto].
    split; simpl; auto. discriminate.
Qed.
