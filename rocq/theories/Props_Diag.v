(** Property C65: exactly which diagnostics a grammatical file gets. *)
From Coq Require Import String.
From Verif Require Import Base Utf8 Token Ext Strconv StrconvSpec StrconvProofs Lexer LexSpec LexSpec2 LexerProofs LexOne LexSeq
  Ast Env Diag Parser ParseSpec ParseStream ParseFacts ParseSound ParseLoop ParseTop ParseComplete ParseFileC ParseShape ParseSource
  ParseUnique ParseTree ParseTokens ParseDup Props_Lexer Props_Parser.
Open Scope string_scope.
Open Scope list_scope.
Open Scope Z_scope.

(** The value of a name; nil if it has none. *)
Definition valueIs (e : environment) (w : bytes) (v : node) : Prop :=
  boundTo e w v \/ (~ bound e w /\ v = NNil).

(** [Complains e t d]: the deferred check [t] fails in [e] and this is its diagnostic. *)
Inductive Complains (e : environment) : task -> diag -> Prop :=
| Cm_missing : forall w p, ~ bound e w -> Complains e (TExists w p) (mkDiag p p (MNotExist w))
| Cm_range : forall k i j a b, valueIs e (iName i) a -> valueIs e (iName j) b -> typeOf a <> typeOf b ->
    Complains e (TIdentBound k i (NIdentifier j)) (mkDiag (iPos i) (iPos j) (MRangeTypes k (iName i) (iName j) a b))
| Cm_intMissing : forall w s t, ~ bound e w -> Complains e (TIntBound w s t) (mkDiag s t (MNotExist w))
| Cm_intFloat : forall w s t r k v, boundTo e w (NFloatLiteral r k v) -> Complains e (TIntBound w s t) (mkDiag s t MFloatForInt)
| Cm_intOther : forall w s t n, boundTo e w n -> isNumber n = false -> Complains e (TIntBound w s t) (mkDiag s t MIntUpper)
| Cm_floatMissing : forall w s t, ~ bound e w -> Complains e (TFloatBound w s t) (mkDiag s t (MNotExist w))
| Cm_floatInt : forall w s t p k v, boundTo e w (NIntegerLiteral p k v) -> Complains e (TFloatBound w s t) (mkDiag s t MIntForFloat)
| Cm_floatOther : forall w s t n, boundTo e w n -> isNumber n = false -> Complains e (TFloatBound w s t) (mkDiag s t MFloatUpper).

(** The diagnostics of the failing checks, in order. *)
Inductive Complaints (e : environment) : list task -> list diag -> Prop :=
| Cs_nil : Complaints e [] []
| Cs_ok : forall t tk ds, CheckOk e t -> Complaints e tk ds -> Complaints e (t :: tk) ds
| Cs_fail : forall t tk d ds, Complains e t d -> Complaints e tk ds -> Complaints e (t :: tk) (d :: ds).

Lemma value_get : forall e w, valueIs e w (get e w).
Proof.
  intros e w. unfold get. destruct (assoc w e) as [v|] eqn:E; [left; exact E|right].
  split; auto. intros H. apply bound_assoc in H as [x H]. unfold boundTo in H. congruence.
Qed.

Lemma value_fun : forall e w v v', valueIs e w v -> valueIs e w v' -> v = v'.
Proof.
  intros e w v v' [H|[H ->]] [H'|[H' ->]]; auto.
  - unfold boundTo in *. congruence.
  - exfalso. apply H'. eapply assoc_bound; eauto.
  - exfalso. apply H. eapply assoc_bound; eauto.
Qed.

Lemma sameType_iff : forall a b, sameType a b = true <-> typeOf a = typeOf b.
Proof.
  intros a b. unfold sameType. destruct (typeOf a) as [k|]; destruct (typeOf b) as [k'|]; split; intros H; try discriminate; auto.
  - destruct (kind_eq_dec k k'); congruence.
  - destruct (kind_eq_dec k k'); congruence.
Qed.

Lemma complains_iff : forall e t d, realEnv e -> (runTask e t = Some d <-> Complains e t d).
Proof.
  intros e t d HR. destruct t as [w p|k i v|w s t|w s t]; cbn [runTask].
  - split.
    + destruct (exists_ e w) eqn:E; [discriminate|]. intros H. injection H as <-. constructor.
      intros HB. apply exists_names in HB. congruence.
    + intros H. inversion H; subst. replace (exists_ e w) with false; auto. symmetry. apply not_true_iff_false. rewrite exists_names. auto.
  - split.
    + destruct v; try discriminate. cbv zeta. destruct (sameType _ _) eqn:E; [discriminate|]. intros H. injection H as <-.
      constructor; auto using value_get. rewrite <- sameType_iff. congruence.
    + intros H. inversion H; subst. cbv zeta.
      match goal with HA : valueIs e (iName i) ?a, HB : valueIs e (iName j) ?b |- _ =>
        rewrite (value_fun _ _ _ _ (value_get e (iName i)) HA), (value_fun _ _ _ _ (value_get e (iName j)) HB) end.
      replace (sameType a b) with false; auto. symmetry. apply not_true_iff_false. now rewrite sameType_iff.
  - unfold exists_, get. destruct (assoc w e) as [n|] eqn:E.
    + pose proof (boundTo_real e w n HR E) as [R1 R2]. split.
      * destruct n; try (exfalso; eapply R2; reflexivity); try (exfalso; apply R1; reflexivity); cbn [typeOf]; intros H; try discriminate; injection H as <-;
          try (eapply Cm_intOther; [exact E|reflexivity]); try (eapply Cm_intFloat; exact E).
      * intros H. inversion H; subst; try (match goal with HB : boundTo _ _ _ |- _ => unfold boundTo in HB; rewrite E in HB; inversion HB; subst end).
        -- exfalso. match goal with HB : ~ bound _ _ |- _ => apply HB end. eapply assoc_bound; eauto.
        -- reflexivity.
        -- destruct n0; try discriminate; try reflexivity. exfalso. eapply R2; reflexivity.
    + split.
      * intros H. injection H as <-. constructor. intros HB. apply bound_assoc in HB as [x HB]. unfold boundTo in HB. congruence.
      * intros H. inversion H; subst; try (unfold boundTo in *; congruence). reflexivity.
  - unfold exists_, get. destruct (assoc w e) as [n|] eqn:E.
    + pose proof (boundTo_real e w n HR E) as [R1 R2]. split.
      * destruct n; try (exfalso; eapply R2; reflexivity); try (exfalso; apply R1; reflexivity); cbn [typeOf]; intros H; try discriminate; injection H as <-;
          try (eapply Cm_floatOther; [exact E|reflexivity]); try (eapply Cm_floatInt; exact E).
      * intros H. inversion H; subst; try (match goal with HB : boundTo _ _ _ |- _ => unfold boundTo in HB; rewrite E in HB; inversion HB; subst end).
        -- exfalso. match goal with HB : ~ bound _ _ |- _ => apply HB end. eapply assoc_bound; eauto.
        -- reflexivity.
        -- destruct n0; try discriminate; try reflexivity. exfalso. eapply R2; reflexivity.
    + split.
      * intros H. injection H as <-. constructor. intros HB. apply bound_assoc in HB as [x HB]. unfold boundTo in HB. congruence.
      * intros H. inversion H; subst; try (unfold boundTo in *; congruence). reflexivity.
Qed.

Lemma complaints_iff : forall e tk ds, realEnv e -> (Complaints e tk ds <-> ds = failures e tk).
Proof.
  intros e tk ds HR. unfold failures. revert ds. induction tk as [|t tk IH]; intros ds; cbn [flat_map].
  - split; intros H; [inversion H; auto|subst; constructor].
  - destruct (runTask e t) as [d|] eqn:E.
    + split; intros H.
      * inversion H; subst.
        -- exfalso. match goal with HC : CheckOk _ _ |- _ => apply (checkOk_iff e t HR) in HC; congruence end.
        -- match goal with HC : Complains _ _ _ |- _ => apply (complains_iff e t _ HR) in HC end. simpl. f_equal; [congruence|]. now apply IH.
      * subst. apply Cs_fail; [now apply complains_iff|]. now apply IH.
    + split; intros H.
      * inversion H; subst.
        -- now apply IH.
        -- exfalso. match goal with HC : Complains _ _ _ |- _ => apply (complains_iff e t _ HR) in HC; congruence end.
      * subst. apply Cs_ok; [now apply checkOk_iff|]. now apply IH.
Qed.

Lemma registers_real : forall e l e' ds, Registers e l e' ds -> realEnv e -> Forall (fun x => real (snd x)) l -> realEnv e'.
Proof.
  intros e l e' ds H. induction H; intros HE HL; auto; inversion HL; subst.
  - apply IHRegisters; auto. apply app_real; auto. constructor; auto.
  - apply IHRegisters; auto.
Qed.

Lemma combine_snd : forall (P : node -> Prop) (a : list ident) b, Forall P b -> Forall (fun x => P (snd x)) (combine a b).
Proof.
  intros P a. induction a as [|x a IH]; intros b H; simpl; auto. destruct H; constructor; auto.
Qed.

Lemma declared_real : forall X ts eof rules tk df, File X ts eof rules tk df -> Forall (fun x => real (snd x)) (declared ts df).
Proof.
  intros X ts eof rules tk df H. unfold declared. apply combine_snd. apply file_real in H. unfold realEnv in H.
  apply Forall_map. exact H.
Qed.

(** The [=] definitions of the file, where they stand. *)
Theorem C65_declared : forall X ts eof rules tk df, File X ts eof rules tk df ->
  map (fun x => (iName (fst x), snd x)) (declared ts df) = df /\
  Forall (fun x => exists c, In (NRule zeroPos (fst x) (snd x) c) rules) (declared ts df).
Proof.
  intros X ts eof rules tk df H. 
  induction H as [eof|c cms ts eof rules tk defs HC HN HF IH|p w a t e ts eof v rules tk tk' defs HA HE HT HF IH
    |p w a t e c sw ts eof v rules tk tk' defs HA HE HT HS HF IH].
  - split; constructor.
  - unfold declared. erewrite assigned_F_comments by eauto. fold (declared ts defs). destruct IH as [IH1 IH2]. split; auto.
    eapply Forall_impl; [|exact IH2]. intros x (c0 & K). exists c0. now right.
  - unfold declared. erewrite assigned_F_rule by eauto. rewrite declared_app. destruct IH as [IH1 IH2]. unfold defOf.
    assert (W : Forall (fun x => exists c, In (NRule zeroPos (fst x) (snd x) c) (NRule zeroPos (mkIdent p w) v None :: rules)) (declared ts defs)).
    { eapply Forall_impl; [|exact IH2]. intros x (c0 & K). exists c0. now right. }
    destruct (teq (tTok a) ASSIGN); simpl; split; auto; [now f_equal|]. constructor; auto. exists None. now left.
  - unfold declared. erewrite assigned_F_ruleComment by (eauto; apply HT). rewrite declared_app. destruct IH as [IH1 IH2]. unfold defOf.
    assert (W : Forall (fun x => exists tc, In (NRule zeroPos (fst x) (snd x) tc) (NRule zeroPos (mkIdent p w) v (Some (commentOf c)) :: rules)) (declared ts defs)).
    { eapply Forall_impl; [|exact IH2]. intros x (c0 & K). exists c0. now right. }
    destruct (teq (tTok a) ASSIGN); simpl; split; auto; [now f_equal|]. constructor; auto. eexists. now left.
Qed.

(** C65. ParseFile on a source whose tokens are a file of the grammar: the rules are the
    file's; the diagnostics are those of the repeated definitions, in order, and then those
    of the failing checks in the resulting environment, in order, and no others. *)
Theorem C65_diagnostics : forall X s e ts eof t2 l2 rules tk df e' ds ds2, decodable s -> envOk e ->
  tokens X s ts eof -> scans X 2 (newLexer s) = Ok (t2, l2) -> errors l2 = [] ->
  File X ts eof rules tk df -> Registers e (declared ts df) e' ds -> Complaints e' tk ds2 ->
  exists p', parseSource X (parseFuel s) s e = Ok ((Some (NCDDL zeroPos rules), collect (ds ++ ds2)), p') /\ env p' = e'.
Proof.
  intros X s e ts eof t2 l2 rules tk df e' ds ds2 D [ND RE] HS H2 HE HF HR HC.
  assert (RE' : realEnv e') by (eapply registers_real; eauto; eapply declared_real; eauto).
  apply (complaints_iff e' tk ds2 RE') in HC. subst ds2.
  destruct (new_str X s D) as (ts0 & f & k & HS0 & _ & _ & HL & _).
  destruct (str_fun _ _ _ _ HS0 _ _ HS) as [-> ->].
  assert (HFu : (length ts <= parseFuel s)%nat) by (unfold parseFuel; lia).
  unfold parseSource. unfold tokens in HS.
  destruct (newParser_toks X (newLexer s) e ts _ HS) as [(E & E' & _)|(p & l1 & t1 & t2' & E & HT & E1 & E2 & E3 & E4 & E5)]; [discriminate|].
  simpl in H2. rewrite E4 in H2. cbn [rbind] in H2. rewrite E5 in H2. cbn [rbind] in H2. inversion H2; subst.
  rewrite E. cbn [rbind]. unfold parseFile. rewrite HE.
  destruct (fileLoop_dup X eof ts eof rules tk df HF eq_refl (parseFuel s) (parseFuel s) [] p HT HFu HFu) as [H1 _].
  destruct (H1 e' ds HR) as (p1 & K1 & K2 & K3 & K4 & K5). rewrite K1. cbn [rbind app].
  destruct (runTasks_spec p1) as (R1 & R2 & R3 & _). exists (runTasks p1).
  rewrite R1, K3, K4, K5, E1, E3. cbn [app]. split; auto. congruence.
Qed.

(** It crashes exactly when a name is defined again whose first value has no start. *)
Theorem C65_crash : forall X s e ts eof t2 l2 rules tk df, decodable s -> envOk e ->
  tokens X s ts eof -> scans X 2 (newLexer s) = Ok (t2, l2) -> errors l2 = [] ->
  File X ts eof rules tk df -> (parseSource X (parseFuel s) s e = Panic <-> RegCrash e (declared ts df)).
Proof.
  intros X s e ts eof t2 l2 rules tk df D EO HS H2 HE HF. split.
  - intros HP. destruct (registers_total (declared ts df) e) as [(e' & ds & HR)|HR]; auto. exfalso.
    assert (RE' : realEnv e') by (eapply registers_real; eauto; [apply EO|eapply declared_real; eauto]).
    destruct (C65_diagnostics X s e ts eof t2 l2 rules tk df e' ds (failures e' tk) D EO HS H2 HE HF HR) as (p' & K & _); [now apply complaints_iff|].
    congruence.
  - intros HR. destruct (new_str X s D) as (ts0 & f & k & HS0 & _ & _ & HL & _).
    destruct (str_fun _ _ _ _ HS0 _ _ HS) as [-> ->].
    assert (HFu : (length ts <= parseFuel s)%nat) by (unfold parseFuel; lia).
    unfold parseSource. unfold tokens in HS.
    destruct (newParser_toks X (newLexer s) e ts _ HS) as [(E & E' & _)|(p & l1 & t1 & t2' & E & HT & E1 & E2 & E3 & E4 & E5)]; [discriminate|].
    simpl in H2. rewrite E4 in H2. cbn [rbind] in H2. rewrite E5 in H2. cbn [rbind] in H2. inversion H2; subst.
    rewrite E. cbn [rbind]. unfold parseFile. rewrite HE.
    destruct (fileLoop_dup X eof ts eof rules tk df HF eq_refl (parseFuel s) (parseFuel s) [] p HT HFu HFu) as [_ H1].
    rewrite (H1 HR). reflexivity.
Qed.

(** So whatever is reported about a grammatical file is true: every diagnostic is a
    repeated definition or a failing check. *)
Theorem C65_total : forall X s e ts eof t2 l2 rules tk df, decodable s -> envOk e ->
  tokens X s ts eof -> scans X 2 (newLexer s) = Ok (t2, l2) -> errors l2 = [] ->
  File X ts eof rules tk df ->
  parseSource X (parseFuel s) s e = Panic \/
  exists e' ds ds2 p', Registers e (declared ts df) e' ds /\ Complaints e' tk ds2 /\
    parseSource X (parseFuel s) s e = Ok ((Some (NCDDL zeroPos rules), collect (ds ++ ds2)), p') /\ env p' = e'.
Proof.
  intros X s e ts eof t2 l2 rules tk df D EO HS H2 HE HF.
  destruct (registers_total (declared ts df) e) as [(e' & ds & HR)|HR]; [right|left; now apply (C65_crash X s e ts eof t2 l2 rules tk df)].
  assert (RE' : realEnv e') by (eapply registers_real; eauto; [apply EO|eapply declared_real; eauto]).
  assert (HC : Complaints e' tk (failures e' tk)) by (now apply complaints_iff).
  destruct (C65_diagnostics X s e ts eof t2 l2 rules tk df e' ds (failures e' tk) D EO HS H2 HE HF HR HC) as (p' & K1 & K2).
  exists e', ds, (failures e' tk), p'. auto.
Qed.

(** Two redefinitions, an unknown name and two bad bounds. *)
Definition faulty : bytes := lines ["a = 1"; "b = [ int ]"; "a = tstr"; "c = 0..b"; "d = x / int"; "b = tstr"; "e = a .. z"].

Example C65_ex : decodable faulty /\ exists root p' d1 d2 d3 d4 d5 d6, parse X0 faulty = Ok ((Some root, Some [d1; d2; d3; d4; d5; d6]), p') /\
  dMsg d1 = MExisting (str "a") 1 5 /\ pLine (dStart d1) = 3 /\ dMsg d2 = MExisting (str "b") 2 5 /\ pLine (dStart d2) = 6 /\
  dMsg d3 = MIntUpper /\ dMsg d4 = MNotExist (str "x") /\ dMsg d5 = MNotExist (str "z") /\ (exists v, dMsg d6 = MRangeTypes INCLUSIVE_BOUND (str "a") (str "z") v NNil).
Proof.
  split; [apply good_by_ascii; vm_compute; reflexivity|].
  do 8 eexists. split; [vm_compute; reflexivity|]. repeat split. eexists. reflexivity.
Qed.

(** The hypotheses of C65_diagnostics are met by a source with a redefinition and an
    unknown name. *)
Example C65_ex_meets : let s := lines ["a = 1"; "a = b"] in exists ts eof t2 l2 rules tk df e' ds ds2,
  decodable s /\ envOk [] /\ tokens X0 s ts eof /\ scans X0 2 (newLexer s) = Ok (t2, l2) /\ errors l2 = [] /\
  File X0 ts eof rules tk df /\ Registers [] (declared ts df) e' ds /\ Complaints e' tk ds2 /\ length ds = 1%nat /\ length ds2 = 1%nat.
Proof.
  cbv zeta.
  set (p1 := mkPos [] 0 1 1). set (p2 := mkPos [] 2 1 3). set (p3 := mkPos [] 4 1 5).
  set (q1 := mkPos [] 6 2 1). set (q2 := mkPos [] 8 2 3). set (q3 := mkPos [] 10 2 5).
  set (eof := mkTok EOF (mkPos [] 12 3 1) []).
  exists [mkTok IDENT p1 (str "a"); mkTok ASSIGN p2 (str "="); mkTok INT p3 (str "1");
          mkTok IDENT q1 (str "a"); mkTok ASSIGN q2 (str "="); mkTok IDENT q3 (str "b")], eof.
  do 2 eexists.
  set (v1 := NIntegerLiteral p3 INT 1). set (v2 := NIdentifier (mkIdent q3 (str "b"))).
  exists [NRule zeroPos (mkIdent p1 (str "a")) v1 None; NRule zeroPos (mkIdent q1 (str "a")) v2 None].
  exists ([] ++ ([TExists (str "b") q3] ++ [])), [(str "a", v1); (str "a", v2)].
  do 3 eexists.
  split; [apply good_by_ascii; vm_compute; reflexivity|].
  split; [split; constructor|].
  split; [eapply tokens_by_scans; [apply good_by_ascii; vm_compute; reflexivity| vm_compute; reflexivity| reflexivity|reflexivity]|].
  split; [vm_compute; reflexivity|]. split; [reflexivity|].
  split.
  { assert (HA : forall t nx n k, Atom X0 t (tTok nx) n k -> tTok t <> COMMA -> over (tTok t) (tTok nx) -> Entry X0 [t] nx n k).
    { intros t nx n k H N O. rewrite <- (app_nil_r k). apply (E_intro X0 [] t [] [] nx n k n []); [constructor|now constructor|].
      now constructor. }
    apply (F_rule X0 p1 (str "a") (mkTok ASSIGN p2 (str "=")) (mkTok INT p3 (str "1")) []
      [mkTok IDENT q1 (str "a"); mkTok ASSIGN q2 (str "="); mkTok IDENT q3 (str "b")] eof v1 _ [] _ [(str "a", v2)]).
    - now left.
    - apply HA; [apply A_intLit; [discriminate|reflexivity]|discriminate|right; reflexivity].
    - intros [K _]. discriminate K.
    - apply (F_rule X0 q1 (str "a") (mkTok ASSIGN q2 (str "=")) (mkTok IDENT q3 (str "b")) [] [] eof v2 _ _ [] []).
      + now left.
      + apply HA; [apply A_ref; discriminate|discriminate|right; reflexivity].
      + intros [K _]. discriminate K.
      + constructor. }
  split.
  { apply (Rg_new [] (mkIdent p1 (str "a")) v1); [intros K; inversion K|].
    eapply (Rg_dup _ (mkIdent q1 (str "a")) v2); [reflexivity|reflexivity|constructor]. }
  split.
  { apply Cs_fail; [apply Cm_missing|apply Cs_nil]. intros [K|[]]. vm_compute in K. discriminate K. }
  split; reflexivity.
Qed.

(** C65_crash is about real sources: the second definition of a name whose first value
    is a comparator. *)
Example C65_ex_crash : decodable (lines ["x = uint .le 7"; "x = 1"]) /\ parse X0 (lines ["x = uint .le 7"; "x = 1"]) = Panic.
Proof. split; [apply good_by_ascii; vm_compute; reflexivity|vm_compute; reflexivity]. Qed.
