(** The tree of every return of ParseFile, with or without diagnostics. *)
From Coq Require Import String.
From Verif Require Import Base Utf8 Token Strconv Ext Lexer LexSpec LexSpec2 LexSeq Ast Env Diag Parser ParseSpec ParseStream ParseFacts ParseSound ParseLoop ParseTop
  ParseShape ParseSource ParseTree.
Open Scope string_scope.
Open Scope list_scope.
Open Scope Z_scope.

(** A node of the rule list, made of tokens of [ts]. *)
Inductive RuleOf (X : Ext) (ts : list tokInfo) : node -> Prop :=
| RO_comments : forall c cms, Forall commentTok (c :: cms) -> incl (c :: cms) ts -> RuleOf X ts (commentNode (c :: cms))
| RO_failed : forall p w, In (mkTok IDENT p w) ts -> RuleOf X ts (NRule zeroPos (mkIdent p w) NNil None)
| RO_rule : forall p w u nx v tk tc, In (mkTok IDENT p w) ts -> incl u ts -> Entry X u nx v tk ->
    (forall c, tc = Some c -> exists t, In t ts /\ tTok t = COMMENT /\ c = commentOf t) ->
    RuleOf X ts (NRule zeroPos (mkIdent p w) v tc).

Lemma ruleOf_incl : forall X ts ts' n, incl ts ts' -> RuleOf X ts n -> RuleOf X ts' n.
Proof.
  intros X ts ts' n HI H. destruct H.
  - apply RO_comments; auto. eapply incl_tran; eauto.
  - apply RO_failed; auto.
  - eapply RO_rule with (u := u); eauto; [eapply incl_tran; eauto|]. intros c E. match goal with H : forall c, _ -> _ |- _ => destruct (H c E) as (t & A & B) end. eauto.
Qed.

Lemma suf_incl : forall (a b : list tokInfo), suf a b -> incl (tl a) b.
Proof. intros a b [u ->]. intros x Hx. apply in_or_app. right. destruct a; [contradiction|right; auto]. Qed.

Lemma parseRule_loose : forall X f fuel p ts, Toks X p ts f -> curr p <> EOF -> (length ts <= fuel)%nat ->
  wp (parseRule X fuel p) (fun r => let '(n, d, p') := r in n = NNil \/ RuleOf X ts n).
Proof.
  intros X f fuel p ts HT NE HF. destruct (toks_cons _ _ _ _ HT NE) as [ts1 E1].
  remember (cur p) as t eqn:Et. subst ts. pose proof (toks_cur _ _ _ _ _ HT) as HC. simpl in HF.
  unfold parseRule. destruct (curr p) eqn:EC; try (cbn [wp]; left; reflexivity).
  - unfold parseComment. apply wp_bind. eapply wp_mono; [eapply commentLoop_post; eauto; lia|].
    intros [l p'] (cms & rest & -> & H1 & H2 & H3 & H4 & ->). unsame.
    assert (HCt : commentTok t) by (unfold commentTok, curr in *; congruence).
    assert (HR : RuleOf X (t :: cms ++ rest) (commentNode (t :: cms))).
    { apply RO_comments; auto. intros x [-> |Hx]; [left; auto|right; apply in_or_app; auto]. }
    replace (parseInnerComment p) with (commentOf t) by (unfold parseInnerComment, commentOf, pos, currLit; now rewrite HC).
    destruct cms; cbn [wp app map]; right; exact HR.
  - set (name := mkIdent (pos p) (currLit p)). wnext HT p1 T1 S1.
    assert (EN : name = mkIdent (tPos t) (tLit t)) by (unfold name, pos, currLit; now rewrite HC).
    assert (ETok : t = mkTok IDENT (tPos t) (tLit t)) by (destruct t; unfold curr in EC; rewrite HC in EC; simpl in *; congruence).
    assert (HIn : In (mkTok IDENT (tPos t) (tLit t)) (t :: ts1)) by (left; auto).
    assert (HAsg : forall prec, assignTok (curr p1) -> (forall p2, prec p2 = 0 \/ prec p2 = precedence (curr p2)) ->
      forall (reg : node -> parser -> res parser), (forall v q, wp (reg v q) (fun _ => True)) ->
      wp (p2 <- pnext X p1;;
          '(e, d, p3) <- parseEntry X fuel (prec p2) p2;;
          match d with
          | Some _ => Ok (NRule zeroPos name NNil None, d, p3)
          | None =>
            '(tc, p4) <- ruleTrailing X p3;;
            p5 <- reg e p4;;
            Ok (NRule zeroPos name e tc, None, p5)
          end) (fun r => let '(n, d, p') := r in n = NNil \/ RuleOf X (t :: ts1) n)).
    { intros prec HA HPr reg HReg.
      assert (NA : curr p1 <> EOF) by (unfold assignTok in HA; intuition congruence).
      destruct (toks_cons _ _ _ _ T1 NA) as [ts2 E2]. remember (cur p1) as ta eqn:Eta. subst ts1. simpl in HF.
      wnext T1 p2 T2 S2. apply wp_bind. unsame.
      eapply wp_mono; [eapply (parseEntry_post X (fun _ => True) f fuel (prec p2) p2 ts2); eauto; try lia; apply posOk_true|].
      intros [[v d] p3] (ts' & tk & K1 & K2 & K3 & K4 & K5 & K6 & K7). destruct d as [d|].
      - cbn [wp]. right. rewrite EN. apply RO_failed; auto.
      - destruct K7 as (t1 & u & rest & -> & -> & HE). apply wp_bind.
        assert (HU : incl (t1 :: u) (t :: ta :: (t1 :: u) ++ rest)) by (intros x Hx; do 2 right; apply in_or_app; auto).
        eapply ruleTrailing_post; [exact K1| |].
        + intros _. apply wp_bind. eapply wp_mono; [apply HReg|]. intros q _. cbn [wp]. right. rewrite EN. eapply RO_rule; eauto. discriminate.
        + intros c ts3 p4 -> HTr T4 S4. apply wp_bind. eapply wp_mono; [apply HReg|]. intros q _. cbn [wp]. right. rewrite EN. eapply RO_rule; eauto.
          intros c0 E. inversion E; subst. exists c. split; [do 2 right; apply in_or_app; right; left; auto|]. split; auto. apply HTr. }
    destruct (curr p1) eqn:EC1; try (cbn [wp]; left; reflexivity).
    + apply (HAsg (fun p2 => precedence (curr p2))); auto; [left; auto|]. intros v q. apply register_post; auto.
    + apply (HAsg (fun p2 => LOWEST)) with (reg := fun _ q => Ok q); auto; [right; auto|]. intros; exact I.
    + apply (HAsg (fun p2 => LOWEST)) with (reg := fun _ q => Ok q); auto; [right; auto|]. intros; exact I.
Qed.

Lemma fileLoop_loose : forall X f rfuel fuel acc p ts, Toks X p ts f -> (length ts <= rfuel)%nat -> (length ts <= fuel)%nat ->
  wp (fileLoop X rfuel fuel acc p) (fun r => exists new, fst r = acc ++ new /\ Forall (RuleOf X ts) new).
Proof.
  intros X f rfuel. induction fuel as [|fuel IH]; intros acc p ts HT HR HF.
  - destruct ts; simpl in HF; [|lia]. simpl. assert (E : curr p = EOF) by (eapply toks_curr_eof; eauto). rewrite E, teq_refl. cbn [wp].
    exists []. now rewrite app_nil_r.
  - simpl fileLoop. destruct (teq (curr p) EOF) eqn:EE; [cbn [wp]; exists []; now rewrite app_nil_r|].
    apply teq_false in EE. apply wp_bind.
    assert (HW : wp (parseRule X rfuel p) (fun r => RulePost X (fun _ => True) p ts f r /\ let '(n, d, p') := r in n = NNil \/ RuleOf X ts n)).
    { pose proof (parseRule_post X (fun _ => True) f rfuel p ts HT EE HR (posOk_true _ _)) as A.
      pose proof (parseRule_loose X f rfuel p ts HT EE HR) as B. destruct (parseRule X rfuel p); auto. split; auto. }
    eapply wp_mono; [exact HW|]. intros [[n d] p1] [(ts' & tk & ds & df & K1 & K2 & _) HN].
    assert (K1' : Toks X (handle p1 d) ts' f) by (apply toks_handle; auto).
    wnext K1' p2 T2 S2.
    assert (HLt : (length (tl ts') < length ts)%nat).
    { destruct (toks_cons _ _ _ _ HT EE) as [ts0 E0]. apply suf_len in K2. destruct ts'; simpl in *; [rewrite E0; simpl; lia|lia]. }
    eapply wp_mono; [eapply (IH (if notNil n then acc ++ [n] else acc) p2 (tl ts') T2); auto; lia|].
    intros [rules p3] (new & J1 & J2). cbn [fst] in *.
    assert (J3 : Forall (RuleOf X ts) new) by (eapply Forall_impl; [|exact J2]; intros; eapply ruleOf_incl; [apply suf_incl; eauto|auto]).
    destruct HN as [-> |HN]; [exists new; auto|].
    destruct (notNil n); [|exists new; auto]. exists (n :: new). split; [rewrite J1, <- app_assoc; reflexivity|constructor; auto].
Qed.

Theorem source_loose : forall X s e fuel ts f rules ds p', Str X (newLexer s) ts f -> (length ts <= fuel)%nat ->
  parseSource X fuel s e = Ok ((Some (NCDDL zeroPos rules), ds), p') -> Forall (RuleOf X ts) rules.
Proof.
  intros X s e fuel ts f rules ds p' HS HL H. unfold parseSource in H.
  destruct (newParser_toks X (newLexer s) e ts f HS) as [(E & _)|(p & l1 & t1 & t2 & E & HT & _)]; rewrite E in H; cbn [rbind] in H; [discriminate|].
  unfold parseFile in H. destruct (errors (lx p)); [|discriminate].
  pose proof (fileLoop_loose X f fuel fuel [] p ts HT HL HL) as HW.
  destruct (fileLoop X fuel fuel [] p) as [[r p1]| | |]; try discriminate. cbn [rbind wp fst] in *. inversion H; subst.
  destruct HW as (new & E1 & E2). simpl in E1. subst new. exact E2.
Qed.

(** Every node of a returned tree. *)
Lemma loose_shapes : forall X (P : tokInfo -> Prop) ts rules, Forall (RuleOf X ts) rules -> Forall P ts ->
  forall m, within (NCDDL zeroPos rules) m ->
    m = NCDDL zeroPos rules \/ RuleShape P m \/ (exists p w, P (mkTok IDENT p w) /\ m = NRule zeroPos (mkIdent p w) NNil None) \/ Shape X P (fun _ => True) m \/ isNil m.
Proof.
  intros X P ts rules HR HP m HW. inversion HW as [|? n ? HC HW']; subst; [auto|]. inversion HC; subst. clear HC HW.
  match goal with H : In n rules |- _ => rename H into HI end.
  rewrite Forall_forall in HR, HP. pose proof (HR _ HI) as HRO. inversion HRO as [c cms HCm HIn|p w HIn|p w u nx v tk tc HIn HU HE HTc]; subst.
  - assert (HL : RuleShape P (commentNode (c :: cms))).
    { destruct cms as [|c2 cms].
      - apply RS_comment; [apply HP, HIn; left; auto|]. inversion HCm; auto.
      - apply (RS_comments P (c :: c2 :: cms)); auto; [discriminate|]. apply Forall_forall. auto. }
    assert (EM : m = commentNode (c :: cms)).
    { inversion HW' as [|? k ? HCh _]; subst; auto. destruct cms; inversion HCh. }
    subst. auto.
  - inversion HW' as [|? k ? HCh HW2]; subst; [right; right; left; eauto|]. inversion HCh; subst.
    inversion HW2 as [|? k2 ? HCh2 _]; subst; [|inversion HCh2]. right; right; right; right. left; auto.
  - inversion HW' as [|? k ? HCh HW2]; subst.
    + right; left. destruct tc as [c|].
      * destruct (HTc c eq_refl) as (t & A & B & ->). apply RS_ruleComment; auto. eapply Entry_real; eauto.
      * apply RS_rule; auto. eapply Entry_real; eauto.
    + inversion HCh; subst. right; right; right.
      assert (HSh : Shapes X P (fun _ => True) k).
      { destruct (grammar_shapes X P (fun _ => True)) as [G _]. eapply G; eauto; apply Forall_forall; auto. }
      exact (HSh m HW2).
Qed.
