(** Exactly which rules of a returned tree define a name. *)
From Coq Require Import String.
From Verif Require Import Base Token Strconv Ext Lexer Ast Env Diag Parser ParseSpec ParseStream ParseFacts ParseSound ParseLoop ParseTop ParseShape ParseFileC ParseSource ParseFrame ParseLoose.
Open Scope string_scope.
Open Scope list_scope.
Open Scope Z_scope.

(** The token after the rule name [i] in the source is a [k]. *)
Definition assignedWith (ts : list tokInfo) (i : ident) (k : token) : Prop :=
  exists pre a post, ts = pre ++ mkTok IDENT (iPos i) (iName i) :: a :: post /\ tTok a = k.

(** [Defs ts rules l]: [l] lists the definitions made by the rules, in order. A
    rule defines its name exactly when it was parsed without error and is
    written with [=]. *)
Inductive Defs (ts : list tokInfo) : list node -> list (bytes * node) -> Prop :=
| De_nil : Defs ts [] []
| De_comment : forall n rules l, typeOf n = Some KComment \/ typeOf n = Some KCommentGroup -> Defs ts rules l -> Defs ts (n :: rules) l
| De_failed : forall i rules l, Defs ts rules l -> Defs ts (NRule zeroPos i NNil None :: rules) l
| De_choice : forall i v c rules l, real v -> assignedWith ts i TYPE_CHOICE_ASSIGN \/ assignedWith ts i GROUP_CHOICE_ASSIGN ->
    Defs ts rules l -> Defs ts (NRule zeroPos i v c :: rules) l
| De_assign : forall i v c rules l, real v -> assignedWith ts i ASSIGN -> Defs ts rules l ->
    Defs ts (NRule zeroPos i v c :: rules) ((iName i, v) :: l).

Lemma assignedWith_suf : forall a b i k, suf a b -> assignedWith (tl a) i k -> assignedWith b i k.
Proof.
  intros a b i k [c ->] (pre & t & post & E & K). destruct a as [|x a]; [destruct pre; discriminate|]. simpl in E. subst a.
  exists (c ++ x :: pre), t, post. split; auto. now rewrite <- app_assoc.
Qed.

Lemma defs_suf : forall a b rules l, suf a b -> Defs (tl a) rules l -> Defs b rules l.
Proof.
  intros a b rules l HS H. induction H; try (constructor; auto; fail).
  - apply De_choice; auto. destruct H0; [left|right]; eapply assignedWith_suf; eauto.
  - apply De_assign; auto. eapply assignedWith_suf; eauto.
Qed.

Definition oneDef (ts : list tokInfo) (n : node) (l : list (bytes * node)) : Prop :=
  (n = NNil /\ l = []) \/ (n <> NNil /\ forall rules l', Defs ts rules l' -> Defs ts (n :: rules) (l ++ l')).

Lemma parseRule_defs : forall X f fuel p ts, Toks X p ts f -> curr p <> EOF -> (length ts <= fuel)%nat ->
  wp (parseRule X fuel p) (fun r => let '(n, d, p') := r in exists l, oneDef ts n l /\ env p' = addAll (env p) l).
Proof.
  intros X f fuel p ts HT NE HF. destruct (toks_cons _ _ _ _ HT NE) as [ts1 E1].
  remember (cur p) as t eqn:Et. subst ts. pose proof (toks_cur _ _ _ _ _ HT) as HC. simpl in HF.
  unfold parseRule. destruct (curr p) eqn:EC; try (cbn [wp]; exists []; split; [left; auto|reflexivity]).
  - unfold parseComment. apply wp_bind. eapply wp_mono; [eapply commentLoop_post; eauto; lia|].
    intros [l p'] (cms & rest & -> & H1 & H2 & H3 & H4 & ->). unsame.
    destruct cms; cbn [wp app map]; exists []; (split; [|simpl; congruence]); right; (split; [discriminate|]); intros rules l' HD; simpl; apply De_comment; auto.
  - set (name := mkIdent (pos p) (currLit p)). wnext HT p1 T1 S1.
    assert (EN : name = mkIdent (tPos t) (tLit t)) by (unfold name, pos, currLit; now rewrite HC).
    assert (ETok : t = mkTok IDENT (tPos t) (tLit t)) by (destruct t; unfold curr in EC; rewrite HC in EC; simpl in *; congruence).
    assert (HAsg : forall prec (reg : node -> parser -> res parser) (defs : node -> list (bytes * node)),
      curr p1 <> EOF ->
      (forall v q, env q = env p -> wp (reg v q) (fun q' => env q' = addAll (env p) (defs v))) ->
      (forall ts1' v c, ts1 = cur p1 :: ts1' -> real v -> oneDef (t :: ts1) (NRule zeroPos name v c) (defs v)) ->
      (forall p2, prec p2 = 0 \/ prec p2 = precedence (curr p2)) ->
      wp (p2 <- pnext X p1;;
          '(e, d, p3) <- parseEntry X fuel (prec p2) p2;;
          match d with
          | Some _ => Ok (NRule zeroPos name NNil None, d, p3)
          | None =>
            '(tc, p4) <- ruleTrailing X p3;;
            p5 <- reg e p4;;
            Ok (NRule zeroPos name e tc, None, p5)
          end) (fun r => let '(n, d, p') := r in exists l, oneDef (t :: ts1) n l /\ env p' = addAll (env p) l)).
    { intros prec reg defs NA HReg HOne HPr.
      destruct (toks_cons _ _ _ _ T1 NA) as [ts2 E2]. specialize (HOne ts2). remember (cur p1) as ta eqn:Eta. subst ts1. simpl in HF.
      wnext T1 p2 T2 S2. apply wp_bind. unsame.
      eapply wp_mono; [eapply (parseEntry_post X (fun _ => True) f fuel (prec p2) p2 ts2); eauto; try lia; apply posOk_true|].
      intros [[v d] p3] (ts' & tk & K1 & K2 & K3 & K4 & K5 & K6 & K7). destruct d as [d|].
      - cbn [wp]. exists []. split; [|simpl; congruence]. right. split; [discriminate|]. intros. now apply De_failed.
      - destruct K7 as (t1 & u & rest & -> & -> & HE). apply wp_bind.
        assert (HR : real v) by (eapply Entry_real; eauto).
        eapply ruleTrailing_post; [exact K1| |].
        + intros _. apply wp_bind. eapply wp_mono; [apply HReg; congruence|]. intros q EQ. cbn [wp]. exists (defs v). split; auto.
        + intros c ts3 p4 -> HTr T4 S4. apply wp_bind. eapply wp_mono; [apply HReg|].
          { destruct S4 as (_ & E4 & _). congruence. }
          intros q EQ. cbn [wp]. exists (defs v). split; auto. }
    assert (HW : forall ts1' k, curr p1 = k -> ts1 = cur p1 :: ts1' -> assignedWith (t :: ts1) name k).
    { intros ts1' k Ek ->. exists [], (cur p1), ts1'. split; [rewrite EN; cbn [iPos iName app]; congruence|exact Ek]. }
    destruct (curr p1) eqn:EC1; try (cbn [wp]; exists []; split; [left; auto|simpl; unsame; congruence]).
    + apply (HAsg (fun p2 => precedence (curr p2)) (registerRule name) (fun v => [(iName name, v)])); auto; try discriminate.
      * intros v q EQ. unfold registerRule. unfold addAll. cbn [fold_left fst snd]. rewrite EQ.
        destruct (add (env p) (iName name) v) as [e' dup]. destruct dup; [|reflexivity].
        apply wp_bind. eapply wp_mono; [apply start_wp|]. intros ? _. reflexivity.
      * intros ts1' v c E HR. right. split; [discriminate|]. intros. apply De_assign; eauto.
    + apply (HAsg (fun p2 => LOWEST) (fun _ q => Ok q) (fun v => [])); auto; try discriminate.
      * intros ts1' v c E HR. right. split; [discriminate|]. intros. apply De_choice; eauto.
    + apply (HAsg (fun p2 => LOWEST) (fun _ q => Ok q) (fun v => [])); auto; try discriminate.
      * intros ts1' v c E HR. right. split; [discriminate|]. intros. apply De_choice; eauto.
Qed.

Lemma addAll_app : forall a b e, addAll e (a ++ b) = addAll (addAll e a) b.
Proof. intros a b e. unfold addAll. apply fold_left_app. Qed.

Lemma fileLoop_defs : forall X f rfuel fuel acc p ts, Toks X p ts f -> (length ts <= rfuel)%nat -> (length ts <= fuel)%nat ->
  wp (fileLoop X rfuel fuel acc p) (fun r => exists new l, fst r = acc ++ new /\ Defs ts new l /\ env (snd r) = addAll (env p) l).
Proof.
  intros X f rfuel. induction fuel as [|fuel IH]; intros acc p ts HT HR HF.
  - destruct ts; simpl in HF; [|lia]. simpl. assert (E : curr p = EOF) by (eapply toks_curr_eof; eauto). rewrite E, teq_refl. cbn [wp].
    exists [], []. rewrite app_nil_r. split; auto. split; [constructor|reflexivity].
  - simpl fileLoop. destruct (teq (curr p) EOF) eqn:EE.
    { cbn [wp]; exists [], []. rewrite app_nil_r. split; auto. split; [constructor|reflexivity]. }
    apply teq_false in EE. apply wp_bind.
    assert (HW : wp (parseRule X rfuel p) (fun r => RulePost X (fun _ => True) p ts f r /\ let '(n, d, p') := r in exists l, oneDef ts n l /\ env p' = addAll (env p) l)).
    { pose proof (parseRule_post X (fun _ => True) f rfuel p ts HT EE HR (posOk_true _ _)) as A.
      pose proof (parseRule_defs X f rfuel p ts HT EE HR) as B. destruct (parseRule X rfuel p); auto. split; auto. }
    eapply wp_mono; [exact HW|]. intros [[n d] p1] [(ts' & tk & ds & df & K1 & K2 & _) (l1 & HN & HEn)].
    assert (K1' : Toks X (handle p1 d) ts' f) by (apply toks_handle; auto).
    wnext K1' p2 T2 S2.
    assert (HLt : (length (tl ts') < length ts)%nat).
    { destruct (toks_cons _ _ _ _ HT EE) as [ts0 E0]. apply suf_len in K2. destruct ts'; simpl in *; [rewrite E0; simpl; lia|lia]. }
    eapply wp_mono; [eapply (IH (if notNil n then acc ++ [n] else acc) p2 (tl ts') T2); auto; lia|].
    intros [rules p3] (new & l & J1 & J2 & J3). cbn [fst snd] in *. apply (defs_suf _ _ _ _ K2) in J2.
    assert (EE2 : env p2 = env p1) by (unsame; destruct d; simpl in *; congruence).
    assert (J4 : env p3 = addAll (env p) (l1 ++ l)) by (rewrite addAll_app; congruence).
    destruct HN as [[-> ->]|[HNN HN]]; [exists new, l; auto|].
    assert (ENN : notNil n = true) by (destruct n; auto; congruence). rewrite ENN in J1.
    exists (n :: new), (l1 ++ l). split; [rewrite J1, <- app_assoc; reflexivity|]. auto.
Qed.

Theorem source_defs : forall X s e fuel ts f rules ds p', Str X (newLexer s) ts f -> (length ts <= fuel)%nat ->
  parseSource X fuel s e = Ok ((Some (NCDDL zeroPos rules), ds), p') -> exists l, Defs ts rules l /\ env p' = addAll e l.
Proof.
  intros X s e fuel ts f rules ds p' HS HL H. unfold parseSource in H.
  destruct (newParser_toks X (newLexer s) e ts f HS) as [(E & _)|(p & l1 & t1 & t2 & E & HT & HE)]; rewrite E in H; cbn [rbind] in H; [discriminate|].
  assert (EE : env p = e).
  { unfold newParser in E. destruct (pnext X _) as [q1| | |] eqn:Q1 in E; try discriminate. cbn [rbind] in E.
    apply keeps_next in Q1 as (K1 & _), E as (K2 & _). simpl in K1. congruence. }
  unfold parseFile in H. destruct (errors (lx p)); [|discriminate].
  pose proof (fileLoop_defs X f fuel fuel [] p ts HT HL HL) as HW.
  destruct (fileLoop X fuel fuel [] p) as [[r p1]| | |]; try discriminate. cbn [rbind wp fst snd] in *. inversion H; subst.
  destruct HW as (new & l & E1 & E2 & E3). simpl in E1. subst new. exists l. split; auto. rewrite runTasks_env. exact E3.
Qed.
