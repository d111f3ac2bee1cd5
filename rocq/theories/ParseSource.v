(** [NewParser(NewLexer(src), WithEnv(e)).ParseFile()] on whole sources. *)
From Coq Require Import String.
From Verif Require Import Base Utf8 Token Ext Strconv Lexer LexSpec LexSpec2 LexerProofs LexSeq Ast Env Diag
  Parser ParseSpec ParseStream ParseFacts ParseSound ParseLoop ParseTop ParseComplete ParseFileC.
Open Scope string_scope.
Open Scope list_scope.
Open Scope Z_scope.

(** The deferred checks, said without the model. *)
Definition bound (e : environment) (w : bytes) : Prop := In w (names e).
Definition boundTo (e : environment) (w : bytes) (n : node) : Prop := assoc w e = Some n.

Inductive CheckOk (e : environment) : task -> Prop :=
| Ck_exists : forall w p, bound e w -> CheckOk e (TExists w p)
| Ck_int : forall w s t p k v, boundTo e w (NIntegerLiteral p k v) -> CheckOk e (TIntBound w s t)
| Ck_float : forall w s t r k v, boundTo e w (NFloatLiteral r k v) -> CheckOk e (TFloatBound w s t)
| Ck_other : forall t i v, (forall j, v <> NIdentifier j) -> CheckOk e (TIdentBound t i v)
| Ck_unbound : forall t i j, ~ bound e (iName i) -> ~ bound e (iName j) -> CheckOk e (TIdentBound t i (NIdentifier j))
| Ck_same : forall t i j a b, boundTo e (iName i) a -> boundTo e (iName j) b -> typeOf a = typeOf b ->
    CheckOk e (TIdentBound t i (NIdentifier j)).

(** Environments made by [Add] calls on non-nil nodes. *)
Definition realEnv (e : environment) : Prop := Forall (fun b => real (snd b)) e.
Definition envOk (e : environment) : Prop := NoDup (names e) /\ realEnv e.

Lemma assoc_bound : forall e w n, boundTo e w n -> bound e w.
Proof.
  intros e w n H. apply exists_names. unfold exists_. unfold boundTo in H. now rewrite H.
Qed.

Lemma bound_assoc : forall e w, bound e w -> exists n, boundTo e w n.
Proof.
  intros e w H. apply exists_names in H. unfold exists_ in H. unfold boundTo.
  destruct (assoc w e); [eauto|discriminate].
Qed.

Lemma assoc_in : forall e w n, boundTo e w n -> In (w, n) e.
Proof.
  unfold boundTo. induction e as [|[k v] e IH]; simpl; intros w n H; [discriminate|].
  destruct (beq k w) eqn:E; [|auto]. apply beq_true in E. left. congruence.
Qed.

Lemma assoc_app1 : forall e d w n, boundTo e w n -> boundTo (e ++ d) w n.
Proof.
  unfold boundTo. induction e as [|[k v] e IH]; simpl; intros d w n H; [discriminate|].
  destruct (beq k w); auto.
Qed.

Lemma assoc_app2 : forall e d w, ~ bound e w -> assoc w (e ++ d) = assoc w d.
Proof.
  unfold bound. induction e as [|[k v] e IH]; simpl; intros d w H; auto.
  destruct (beq k w) eqn:E; [apply beq_true in E; tauto|]. apply IH. tauto.
Qed.

Lemma in_assoc : forall e w n, NoDup (names e) -> In (w, n) e -> boundTo e w n.
Proof.
  unfold boundTo. induction e as [|[k v] e IH]; simpl; intros w n ND H; [contradiction|].
  inversion ND; subst. destruct H as [H|H].
  - inversion H; subst. destruct (beq w w) eqn:E; auto. apply beq_false in E. congruence.
  - destruct (beq k w) eqn:E; [|auto]. apply beq_true in E. subst. exfalso. apply H2.
    apply (in_map fst) in H. exact H.
Qed.

Lemma boundTo_real : forall e w n, realEnv e -> boundTo e w n -> real n.
Proof.
  intros e w n HR H. apply assoc_in in H. unfold realEnv in HR. rewrite Forall_forall in HR. apply (HR _ H).
Qed.

Lemma bound_dec : forall e w, bound e w \/ ~ bound e w.
Proof.
  intros e w. destruct (exists_ e w) eqn:E; [left; now apply exists_names|right].
  intros H. apply exists_names in H. congruence.
Qed.

Lemma checkOk_iff : forall e t, realEnv e -> (runTask e t = None <-> CheckOk e t).
Proof.
  intros e t HR. destruct t as [w p|k i v|w s t|w s t]; simpl.
  - split.
    + destruct (exists_ e w) eqn:E; [|discriminate]. intros _. constructor. now apply exists_names.
    + intros H. inversion H; subst. match goal with HB : bound _ _ |- _ => apply exists_names in HB; now rewrite HB end.
  - assert (HI : forall j, (if sameType (get e (iName i)) (get e (iName j)) then None
        else Some (err (MRangeTypes k (iName i) (iName j) (get e (iName i)) (get e (iName j))) (iPos i) (iPos j))) = None
        <-> CheckOk e (TIdentBound k i (NIdentifier j))).
    { intros j. unfold sameType, get.
      destruct (assoc (iName i) e) as [a|] eqn:Ea; destruct (assoc (iName j) e) as [b|] eqn:Eb.
      - assert (Ra : typeOf a <> None).
        { destruct (boundTo_real e (iName i) a HR Ea) as [R _]. destruct a; simpl; congruence. }
        assert (Rb : typeOf b <> None).
        { destruct (boundTo_real e (iName j) b HR Eb) as [R _]. destruct b; simpl; congruence. }
        destruct (typeOf a) as [ka|] eqn:Ka; [|congruence]. destruct (typeOf b) as [kb|] eqn:Kb; [|congruence].
        split.
        + destruct (kind_eq_dec ka kb) as [->|]; [|discriminate]. intros _. eapply Ck_same; eauto. congruence.
        + intros H. inversion H; subst.
          * match goal with HB : forall j, _ <> _ |- _ => exfalso; eapply HB; eauto end.
          * match goal with HB : ~ bound e (iName i) |- _ => exfalso; apply HB; eapply assoc_bound; eauto end.
          * unfold boundTo in *. assert (ka = kb) as -> by congruence.
            destruct (kind_eq_dec kb kb); congruence.
      - assert (Ra : typeOf a <> None).
        { destruct (boundTo_real e (iName i) a HR Ea) as [R _]. destruct a; simpl; congruence. }
        destruct (typeOf a) as [ka|] eqn:Ka; [|congruence]. simpl. split; [discriminate|].
        intros H. inversion H; subst.
        + match goal with HB : forall j, _ <> _ |- _ => exfalso; eapply HB; eauto end.
        + match goal with HB : ~ bound e (iName i) |- _ => exfalso; apply HB; eapply assoc_bound; eauto end.
        + unfold boundTo in *. congruence.
      - assert (Rb : typeOf b <> None).
        { destruct (boundTo_real e (iName j) b HR Eb) as [R _]. destruct b; simpl; congruence. }
        destruct (typeOf b) as [kb|] eqn:Kb; [|congruence]. simpl. split; [discriminate|].
        intros H. inversion H; subst.
        + match goal with HB : forall j, _ <> _ |- _ => exfalso; eapply HB; eauto end.
        + match goal with HB : ~ bound e (iName j) |- _ => exfalso; apply HB; eapply assoc_bound; eauto end.
        + unfold boundTo in *. congruence.
      - simpl. split; auto. intros _. apply Ck_unbound; intros H; apply bound_assoc in H as [x H]; unfold boundTo in H; congruence. }
    destruct v; try (split; auto; intros _; apply Ck_other; intros; discriminate). apply HI.
  - unfold exists_, get. destruct (assoc w e) as [n|] eqn:E.
    + pose proof (boundTo_real e w n HR E) as [R1 R2]. split.
      * destruct n; simpl; try discriminate.
        -- intros H. exfalso. eapply R2; eauto.
        -- intros _. eapply Ck_int; eauto.
      * intros H. inversion H; subst. match goal with HB : boundTo _ _ _ |- _ => unfold boundTo in HB; rewrite E in HB; inversion HB; subst end. reflexivity.
    + split; [discriminate|]. intros H. inversion H; subst. unfold boundTo in *. congruence.
  - unfold exists_, get. destruct (assoc w e) as [n|] eqn:E.
    + pose proof (boundTo_real e w n HR E) as [R1 R2]. split.
      * destruct n; simpl; try discriminate.
        -- intros H. exfalso. eapply R2; eauto.
        -- intros _. eapply Ck_float; eauto.
      * intros H. inversion H; subst. match goal with HB : boundTo _ _ _ |- _ => unfold boundTo in HB; rewrite E in HB; inversion HB; subst end. reflexivity.
    + split; [discriminate|]. intros H. inversion H; subst. unfold boundTo in *. congruence.
Qed.

Lemma checks_iff : forall e tk, realEnv e -> (Forall (fun t => runTask e t = None) tk <-> Forall (CheckOk e) tk).
Proof.
  intros e tk HR. rewrite !Forall_forall. split; intros H x Hx; apply checkOk_iff; auto.
Qed.

Lemma file_real : forall X ts eof rules tk df, File X ts eof rules tk df -> realEnv df.
Proof.
  intros X ts eof rules tk df H. unfold realEnv.
  assert (HD : forall a w v u nx tk0, Entry X u nx v tk0 -> Forall (fun b : bytes * node => real (snd b)) (defOf a w v)).
  { intros a w v u nx tk0 HE. unfold defOf. destruct (teq a ASSIGN); constructor; auto. simpl. eapply Entry_real; eauto. }
  induction H; auto; apply Forall_app; split; eauto.
Qed.

(** Sources: the first two Scan calls. *)
Definition scan2 (X : Ext) (s : bytes) : res (list tokInfo * lexer) := scans X 2 (newLexer s).

Theorem source_post : forall X (P : position -> Prop) s e fuel ts f, Str X (newLexer s) ts f -> (length ts <= fuel)%nat -> posOk P ts f ->
  wp (parseSource X fuel s e) (fun r => let '(res, p') := r in
    exists t2 l2, scan2 X s = Ok (t2, l2) /\
    ((errors l2 <> [] /\ res = (None, None) /\ env p' = e /\ perrors p' = []) \/
     (errors l2 = [] /\ exists rules tk df ds, res = (Some (NCDDL zeroPos rules), collect (perrors p')) /\
       perrors p' = ds ++ failures (e ++ df) tk /\ Forall (fun x => P (dStart x)) (perrors p') /\
       tasks p' = tk /\ env p' = e ++ df /\ (NoDup (names e) -> NoDup (names (e ++ df))) /\
       Bound rules df /\ f = FEof (eofOf f) /\ (ds = [] -> File X ts (eofOf f) rules tk df)))).
Proof.
  intros X P s e fuel ts f HS HL HP. unfold parseSource, scan2.
  destruct (newParser_toks X (newLexer s) e ts f HS) as [(E & _)|(p & l1 & t1 & t2 & E & HT & E1 & E2 & E3 & E4 & E5)];
    rewrite E; cbn [rbind wp]; auto.
  eapply wp_mono; [eapply parseFile_post; eauto|]. intros [res p'] H.
  exists [t1; t2], (lx p). split.
  { simpl. rewrite E4. cbn [rbind]. rewrite E5. reflexivity. }
  destruct H as [(H1 & H2 & H3)|(H1 & rules & tk & df & ds & H2 & H3 & H4 & H5 & H6 & H7 & H8 & H9 & H10)].
  - left. subst p'. auto.
  - right. split; auto. exists rules, tk, df, ds. rewrite E2 in *. rewrite H6 in H7. auto 10.
Qed.

Theorem source_gen : forall X s e fuel ts eof t2 l2 rules tk df, Str X (newLexer s) ts (FEof eof) -> (length ts <= fuel)%nat ->
  scan2 X s = Ok (t2, l2) -> errors l2 = [] ->
  File X ts eof rules tk df -> NoDup (names (e ++ df)) ->
  exists p', parseSource X fuel s e = Ok ((Some (NCDDL zeroPos rules), collect (failures (e ++ df) tk)), p') /\
    env p' = e ++ df /\ tasks p' = tk /\ perrors p' = failures (e ++ df) tk.
Proof.
  intros X s e fuel ts eof t2 l2 rules tk df HS HL H2 HE HF HND. unfold parseSource, scan2 in *.
  destruct (newParser_toks X (newLexer s) e ts _ HS) as [(E & E' & _)|(p & l1 & t1 & t2' & E & HT & E1 & E2 & E3 & E4 & E5)];
    [discriminate|].
  simpl in H2. rewrite E4 in H2. cbn [rbind] in H2. rewrite E5 in H2. cbn [rbind] in H2. inversion H2; subst.
  rewrite E. cbn [rbind]. apply (parseFile_gen X eof fuel p ts rules tk df); auto.
Qed.

Theorem source_run : forall X s e fuel ts eof t2 l2 rules tk df, Str X (newLexer s) ts (FEof eof) -> (length ts <= fuel)%nat ->
  scan2 X s = Ok (t2, l2) -> errors l2 = [] ->
  File X ts eof rules tk df -> NoDup (names (e ++ df)) -> Forall (fun t => runTask (e ++ df) t = None) tk ->
  exists p', parseSource X fuel s e = Ok ((Some (NCDDL zeroPos rules), None), p') /\
    env p' = e ++ df /\ tasks p' = tk /\ perrors p' = [].
Proof.
  intros X s e fuel ts eof t2 l2 rules tk df HS HL H2 HE HF HND HAll.
  destruct (source_gen X s e fuel ts eof t2 l2 rules tk df) as (p' & H3 & H4 & H5 & H6); auto.
  apply failures_nil in HAll. rewrite HAll in *. eauto.
Qed.

(** [Accepts X s e rules defs]: the source is a file of the grammar with these
    rules and definitions, its first two tokens have no lexer error, nothing is
    defined twice and the deferred checks hold. *)
Definition Accepts (X : Ext) (s : bytes) (e : environment) (rules : list node) (defs : environment) : Prop :=
  exists ts eof tk t2 l2, Str X (newLexer s) ts (FEof eof) /\ scan2 X s = Ok (t2, l2) /\ errors l2 = [] /\
    File X ts eof rules tk defs /\ NoDup (names (e ++ defs)) /\ Forall (CheckOk (e ++ defs)) tk.

Lemma collect_none : forall ds, collect ds = None <-> ds = [].
Proof. intros [|d ds]; simpl; split; intros; congruence. Qed.

Lemma posOk_true : forall ts f, posOk (fun _ => True) ts f.
Proof. intros ts f. split; auto. apply Forall_forall; auto. Qed.

Lemma app_real : forall e d, realEnv e -> realEnv d -> realEnv (e ++ d).
Proof. intros. now apply Forall_app. Qed.

Theorem accepts_iff : forall X s e rules defs, decodable s -> envOk e ->
  ((exists p', parseSource X (parseFuel s) s e = Ok ((Some (NCDDL zeroPos rules), None), p') /\ env p' = e ++ defs)
   <-> Accepts X s e rules defs).
Proof.
  intros X s e rules defs D [ND RE].
  destruct (new_str X s D) as (ts & f & k & HS & _ & _ & HL & _).
  assert (HF : (length ts <= parseFuel s)%nat) by (unfold parseFuel; lia). split.
  - intros (p' & E & EE). pose proof (source_post X _ s e (parseFuel s) ts f HS HF (posOk_true ts f)) as H.
    rewrite E in H. cbn [wp] in H.
    destruct H as (t2 & l2 & H2 & [(_ & H3 & _)|(H3 & rules' & tk & df & ds & H4 & H5 & H6 & H7 & H8 & H9 & H10 & H11 & H12)]); [discriminate|].
    inversion H4 as [[Hr Hc]]. subst rules'. symmetry in Hc. apply collect_none in Hc. rewrite Hc in H5. symmetry in H5.
    apply app_eq_nil in H5 as [-> H5]. specialize (H12 eq_refl).
    assert (df = defs) by (apply app_inv_head with e; congruence). subst df.
    exists ts, (eofOf f), tk, t2, l2. rewrite <- H11. repeat split; auto.
    apply checks_iff; [apply app_real; auto; eapply file_real; eauto|]. now apply failures_nil.
  - intros (ts' & eof & tk & t2 & l2 & K1 & K2 & K3 & K4 & K5 & K6).
    destruct (str_fun _ _ _ _ HS _ _ K1) as [-> ->].
    destruct (source_run X s e (parseFuel s) ts' eof t2 l2 rules tk defs K1 HF K2 K3 K4 K5) as (p' & E & E2 & _).
    { apply checks_iff; auto. apply app_real; auto; eapply file_real; eauto. }
    eauto.
Qed.
