(** The parser does not look at the texts of comments: sources whose tokens differ in them only
    are parsed alike. Made after [ParseLits]. *)
From Coq Require Import String.
From Verif Require Import Base Utf8 Token Strconv Ext Lexer Ast Env Diag Parser Doc StrconvProofs ParseTwin ParseLayout.
Open Scope string_scope.
Open Scope list_scope.
Open Scope Z_scope.

(** ** Specification *)

(** Trees without positions and texts of comments; comments that stand where a rule does are treated
    by [noteTop], others are at the end of rules and entries. *)
Definition eraseC (c : comment) : comment := mkComment z [].

Fixpoint note (n : node) : node :=
  match n with
  | NEntry _ i v c => NEntry z (stripI i) (note v) (option_map eraseC c)
  | NTypeChoice _ t a b => NTypeChoice z t (note a) (note b)
  | NGroupChoice _ t a b => NGroupChoice z t (note a) (note b)
  | NUnwrap _ t i => NUnwrap z t (note i)
  | NTag _ t a b i => NTag z t (option_map stripU a) (option_map stripU b) (note i)
  | NEnumeration _ t v => NEnumeration z t (note v)
  | NOptional _ t i => NOptional z t (note i)
  | NNMOccurrence _ t a b i => NNMOccurrence z t (option_map stripU a) (option_map stripU b) (note i)
  | NSizeOp _ t a b => NSizeOp z t (note a) (note b)
  | NRegexp _ t b r => NRegexp z t (option_map (fun pk => (z, snd pk)) b) (note r)
  | NBits _ t a b => NBits z t (note a) (note b)
  | NComparator _ t o a b => NComparator z t o (note a) (note b)
  | NRange _ t a b => NRange z t (note a) (note b)
  | NGroup _ l => NGroup z (map note l)
  | NMap _ t l => NMap z t (map note l)
  | NArray _ l => NArray z (map note l)
  | NBadNode _ t b _ => NBadNode z t (note b) z
  | NRule _ i v c => NRule z (stripI i) (note v) (option_map eraseC c)
  | NCDDL _ l => NCDDL z (map note l)
  | n => strip n
  end.

Definition noteTop (n : node) : node :=
  match n with
  | NComment c => NComment (eraseC c)
  | NCommentGroup l => NCommentGroup (map eraseC l)
  | n => note n
  end.

Definition noteFile (n : node) : node :=
  match n with NCDDL _ l => NCDDL z (map noteTop l) | n => note n end.

(** Tokens of one kind and, unless comments, of one literal. *)
Definition alikeTok (t u : tokInfo) : Prop := tTok t = tTok u /\ (tTok t <> COMMENT -> tLit t = tLit u).

(** Such tokens, comments being on the line of the token before them in both or in neither. *)
Inductive Similar : list tokInfo -> list tokInfo -> Prop :=
| si_nil : Similar [] []
| si_one t t' : alikeTok t t' -> Similar [t] [t']
| si_more t u ts t' u' ts' : alikeTok t t' ->
    (tTok u = COMMENT -> (pLine (tPos t) = pLine (tPos u) <-> pLine (tPos t') = pLine (tPos u'))) ->
    Similar (u :: ts) (u' :: ts') -> Similar (t :: u :: ts) (t' :: u' :: ts').

(** Diagnostics, tasks and definitions without these. *)
Definition noteMsg (m : msg) : msg :=
  match m with
  | MExpectedAt t _ _ => MExpectedAt t 0 0
  | MUnexpectedAt t _ _ => MUnexpectedAt t 0 0
  | MExisting w _ _ => MExisting w 0 0
  | MRangeTypes t l r a b => MRangeTypes t l r (note a) (note b)
  | _ => m
  end.
Definition noteD (d : diag) : diag := mkDiag zeroPos zeroPos (noteMsg (dMsg d)).
Definition noteDef (b : bytes * node) : bytes * node := (fst b, note (snd b)).

Definition noteTask (t : task) : task :=
  match t with
  | TExists w _ => TExists w zeroPos
  | TIdentBound k l to => TIdentBound k (stripI l) (note to)
  | TIntBound w _ _ => TIntBound w zeroPos zeroPos
  | TFloatBound w _ _ => TFloatBound w zeroPos zeroPos
  end.

(** ** Trees *)

Notation en a b := (note a = note b).

Lemma typeOf_en : forall a b, en a b -> typeOf a = typeOf b.
Proof.
  assert (G : forall n, typeOf (note n) = typeOf n) by (destruct n; reflexivity).
  intros a b H. rewrite <- (G a), <- (G b). now rewrite H.
Qed.

Lemma entry_en : forall a b, en a b -> isGroupEntry a = isGroupEntry b.
Proof. intros a b H. unfold isGroupEntry. now rewrite (typeOf_en _ _ H). Qed.

Lemma notNil_en : forall a b, en a b -> notNil a = notNil b.
Proof. intros a b H. destruct a, b; try discriminate H; reflexivity. Qed.

Lemma start_note : forall n, relRes any (node_start n) (node_start (note n)).
Proof.
  induction n; cbn [node_start note strip]; auto; try exact I.
  - destruct l; exact I.
  - destruct n; exact I.
  - destruct base as [[? ?]|]; exact I.
Qed.

Lemma end_note : forall n, relRes any (node_end n) (node_end (note n)).
Proof.
  fix IH 1. assert (G : forall l, relRes any
    ((fix le (l : list node) : res position := match l with [] => Ok noPos | [x] => node_end x | _ :: r => le r end) l)
    ((fix le (l : list node) : res position := match l with [] => Ok noPos | [x] => node_end x | _ :: r => le r end) (map note l))).
  { fix G 1. intros l. destruct l as [|x l]; [exact I|]. pose proof (G l) as Gl. destruct l as [|y l]; [apply IH|exact Gl]. }
  intros n. destruct n; cbn [node_end note strip]; try exact I; try apply IH; try apply G.
  - destruct l; exact I.
  - specialize (IH n). destruct (node_end n), (node_end (note n)); cbn in *; auto.
  - destruct m; exact I.
Qed.

Lemma start_en : forall a b, en a b -> relRes any (node_start a) (node_start b).
Proof. intros a b H. eapply rel_any; [apply start_note|apply start_note|now rewrite H]. Qed.

Lemma end_en : forall a b, en a b -> relRes any (node_end a) (node_end b).
Proof. intros a b H. eapply rel_any; [apply end_note|apply end_note|now rewrite H]. Qed.

(** ** Parsers *)

Section Notes.
Variable X : Ext.

Record simi (p q : parser) : Prop := mkSimi {
  si_toks : forall n, relRes (fun a b => Similar (cur p :: pk p :: fst a) (cur q :: pk q :: fst b)) (scans X n (lx p)) (scans X n (lx q));
  si_errs : map noteD (perrors p) = map noteD (perrors q);
  si_env : map noteDef (env p) = map noteDef (env q);
  si_tasks : map noteTask (tasks p) = map noteTask (tasks q)
}.

Definition simiRes (a b : node * option diag * parser) : Prop :=
  en (fst (fst a)) (fst (fst b)) /\ option_map noteD (snd (fst a)) = option_map noteD (snd (fst b)) /\ simi (snd a) (snd b).

Lemma si_now : forall p q, simi p q -> Similar [cur p; pk p] [cur q; pk q].
Proof. intros p q H. exact (si_toks _ _ H 0%nat). Qed.

Lemma si_curr : forall p q, simi p q -> curr q = curr p.
Proof. intros p q H. apply si_now in H. inversion H as [| |? ? ? ? ? ? [E1 E2]]; subst. now symmetry. Qed.

Lemma si_tok : forall p q, simi p q -> alikeTok (cur p) (cur q).
Proof. intros p q H. apply si_now in H. inversion H; subst; auto. Qed.

Lemma si_lit : forall p q, simi p q -> curr p <> COMMENT -> currLit q = currLit p.
Proof. intros p q H F. pose proof (si_tok _ _ H) as [_ K]. symmetry. now apply K. Qed.

Lemma alike_isLit : forall t u, alikeTok t u -> isLiteral (tTok t) (tLit u) = isLiteral (tTok t) (tLit t).
Proof. intros t u [_ K]. destruct (tTok t) eqn:E; try (rewrite K; [reflexivity|discriminate]). reflexivity. Qed.

Lemma si_isLit : forall p q, simi p q -> isLiteral (curr p) (currLit q) = isLiteral (curr p) (currLit p).
Proof. intros p q H. apply alike_isLit. now apply si_tok. Qed.

Lemma si_peekLit : forall p q, simi p q -> isLiteral (peekTok p) (peekLit q) = isLiteral (peekTok p) (peekLit p).
Proof. intros p q H. apply si_now in H. inversion H as [| |? ? ? ? ? ? _ _ HA]; subst. inversion HA; subst. now apply alike_isLit. Qed.

Lemma si_peek : forall p q, simi p q -> peekTok q = peekTok p.
Proof. intros p q H. apply si_now in H. inversion H as [| |? ? ? ? ? ? _ _ HA]; subst. inversion HA as [|? ? [E1 E2]|]; subst. now symmetry. Qed.

Lemma si_line : forall p q, simi p q -> teq (peekTok q) COMMENT && isSameLineTokens (pos q) (peekPos q) = teq (peekTok p) COMMENT && isSameLineTokens (pos p) (peekPos p).
Proof.
  intros p q H. rewrite (si_peek _ _ H). destruct (teq (peekTok p) COMMENT) eqn:E; auto. cbn [andb].
  apply si_now in H. inversion H as [| |? ? ? ? ? ? _ HL _]; subst. unfold isSameLineTokens, pos, peekPos. unfold peekTok in E.
  assert (K : tTok (pk p) = COMMENT) by (destruct (tTok (pk p)); try discriminate E; reflexivity). specialize (HL K).
  destruct (pLine (tPos (cur q)) =? pLine (tPos (pk q))) eqn:E1, (pLine (tPos (cur p)) =? pLine (tPos (pk p))) eqn:E2; auto; exfalso.
  - apply Z.eqb_eq in E1. apply Z.eqb_neq in E2. apply E2. now apply HL.
  - apply Z.eqb_neq in E1. apply Z.eqb_eq in E2. apply E1. now apply HL.
Qed.

Lemma pnext_simi : forall p q, simi p q -> relRes (fun x y => simi x y /\ cur x = pk p) (pnext X p) (pnext X q).
Proof.
  intros p q H. unfold pnext. pose proof (si_toks _ _ H 1%nat) as H1. cbn [scans] in H1.
  destruct (scan X (lx p)) as [[t l]| | |] eqn:E1, (scan X (lx q)) as [[t' l']| | |] eqn:E2; cbn [rbind relRes] in *; auto.
  split; [|reflexivity]. constructor; cbn [cur pk lx perrors env tasks]; try apply H. intros n. pose proof (si_toks _ _ H (S n)) as HN. cbn [scans] in HN. rewrite E1, E2 in HN. cbn [rbind] in HN.
  destruct (scans X n l) as [[ts m]| | |], (scans X n l') as [[ts' m']| | |]; cbn [rbind relRes fst] in *; auto. inversion HN; subst. assumption.
Qed.

Lemma pnext_s : forall p q, simi p q -> relRes simi (pnext X p) (pnext X q).
Proof. intros p q H. pose proof (pnext_simi _ _ H) as K. destruct (pnext X p), (pnext X q); cbn [relRes] in *; tauto. Qed.

Lemma addTask_simi : forall p q t t', simi p q -> noteTask t = noteTask t' -> simi (addTask p t) (addTask q t').
Proof. intros p q t t' H E. constructor; try apply H. unfold addTask. cbn [tasks]. rewrite !map_app. cbn [map]. now rewrite (si_tasks _ _ H), E. Qed.

Lemma addDiag_simi : forall p q d d', simi p q -> noteD d = noteD d' -> simi (addDiag p d) (addDiag q d').
Proof. intros p q d d' H E. constructor; try apply H. unfold addDiag. cbn [perrors]. rewrite !map_app. cbn [map]. now rewrite (si_errs _ _ H), E. Qed.

(** The same for what stands where a rule does. *)
Definition topRes (a b : node * option diag * parser) : Prop :=
  noteTop (fst (fst a)) = noteTop (fst (fst b)) /\ option_map noteD (snd (fst a)) = option_map noteD (snd (fst b)) /\ simi (snd a) (snd b).

Definition simiFn (f g : entryFn) : Prop := forall prec p q, simi p q -> relRes simiRes (f prec p) (g prec q).
Definition simiPair {A B} (f : A -> B) (a b : A * parser) : Prop := f (fst a) = f (fst b) /\ simi (snd a) (snd b).
Definition simiSum {A B} (f : A -> B) (a b : (A * parser) + (diag * parser)) : Prop :=
  match a, b with
  | inl x, inl y => f (fst x) = f (fst y) /\ simi (snd x) (snd y)
  | inr x, inr y => noteD (fst x) = noteD (fst y) /\ simi (snd x) (snd y)
  | _, _ => False
  end.

Ltac same := repeat match goal with H : simi ?p ?q |- _ => progress rewrite ?(si_line _ _ H), ?(si_curr _ _ H), ?(si_peek _ _ H), ?(si_isLit _ _ H), ?(si_peekLit _ _ H) end.
Ltac ret := cbn [relRes]; unfold simiRes, topRes, simiPair; cbn [fst snd]; split; [cbn [note noteTop strip option_map]; same; try reflexivity; try congruence|
  match goal with |- _ /\ _ => split; [cbn [option_map] in *; try congruence; unfold noteD, err; cbn [dMsg noteMsg]; same; try reflexivity; try congruence|] | _ => idtac end; try assumption].
Ltac next := eapply rel_bind; [apply pnext_simi; eassumption|let HQ := fresh "HCR" in intros ? ? [? HQ]]; cbv beta; same.
Ltac entry := eapply rel_bind; [match goal with HP : simiFn _ _ |- _ => apply HP; eassumption end|
  let HN := fresh "HN" in let HG := fresh "HG" in let HL := fresh "HL" in intros [[? d] ?] [[? d'] ?] (HN & HG & HL); cbn [fst snd] in HN, HG, HL; destruct d as [d|], d' as [d'|]; try discriminate HG]; cbv beta; same.

Lemma commentLoop_simi : forall f acc acc' p q, simi p q -> map eraseC acc = map eraseC acc' ->
  relRes (simiPair (map eraseC)) (commentLoop X f acc p) (commentLoop X f acc' q).
Proof.
  induction f as [|f IH]; intros acc acc' p q H E; cbn [commentLoop]; same; (destruct (teq (peekTok p) COMMENT); [|split; auto]); [exact I|].
  next. apply IH; auto. rewrite !map_app. cbn [map]. rewrite E. reflexivity.
Qed.

Lemma parseComment_simi : forall f p q, simi p q -> relRes topRes (parseComment X f p) (parseComment X f q).
Proof.
  intros f p q H. unfold parseComment. eapply rel_bind.
  - apply commentLoop_simi; [exact H|reflexivity].
  - intros [l p1] [l' q1] [E HL]. cbn [fst snd] in *. destruct l as [|c [|c1 l]], l' as [|c' [|c1' l']]; cbn [map] in E; try discriminate E; ret; cbn [map]; congruence.
Qed.

Lemma inner_simi : forall p q, simi p q -> eraseC (parseInnerComment p) = eraseC (parseInnerComment q).
Proof. reflexivity. Qed.

Lemma entryTrailing_simi : forall p q, simi p q -> relRes (simiPair (option_map eraseC)) (entryTrailing X p) (entryTrailing X q).
Proof.
  intros p q H. unfold entryTrailing. same. destruct (_ && _); [|ret]. next. ret.
Qed.

Lemma ruleTrailing_simi : forall p q, simi p q -> relRes (simiPair (option_map eraseC)) (ruleTrailing X p) (ruleTrailing X q).
Proof.
  intros p q H. unfold ruleTrailing. same. destruct (_ && _); [|ret]. next. next. ret.
Qed.

Lemma expectPeek_simi : forall t p q, simi p q -> relRes simi (expectPeek X t p) (expectPeek X t q).
Proof. intros t p q H. unfold expectPeek. same. destruct (teq (peekTok p) t); [now apply pnext_s|exact H]. Qed.

Lemma parseTagHead_simi : forall p q, simi p q -> relRes (simiSum stripUU) (parseTagHead X p) (parseTagHead X q).
Proof.
  intros p q H. unfold parseTagHead. same. destruct (peekTok p) eqn:EK; try (cbn [relRes simiSum fst snd]; split; auto; fail).
  - next. assert (EL : currLit y = currLit x) by (apply si_lit; auto; unfold curr; rewrite HCR; unfold peekTok in EK; rewrite EK; discriminate). rewrite EL.
    destruct (parseUint (currLit x)); cbn [relRes simiSum fst snd]; split; auto.
  - next. assert (EL : currLit y = currLit x) by (apply si_lit; auto; unfold curr; rewrite HCR; unfold peekTok in EK; rewrite EK; discriminate). unfold parseFloatTag. same. rewrite EL.
    destruct (splitDot (currLit x)) as [|a [|b [|? ?]]]; try (cbn [relRes simiSum fst snd]; split; auto; fail).
    destruct (parseUint a); [cbn [relRes simiSum fst snd]; split; auto|]. destruct (parseUint b); cbn [relRes simiSum fst snd]; split; auto.
Qed.

Lemma occUpper_simi : forall p q, simi p q -> relRes (simiSum (option_map stripU)) (occUpper X p) (occUpper X q).
Proof.
  intros p q H. unfold occUpper. same. destruct (teq (peekTok p) INT) eqn:EK; cbn [andb]; [|next; cbn [relRes simiSum fst snd]; split; auto].
  destruct (isLiteral (peekTok p) (peekLit p)); next; [|cbn [relRes simiSum fst snd]; split; auto].
  assert (EL : currLit y = currLit x) by (apply si_lit; auto; unfold curr; rewrite HCR; unfold peekTok in EK; destruct (tTok (pk p)); discriminate).
  unfold parseUintType, parseUintLiteral. same. rewrite EL. destruct (isLiteral (curr x) (currLit x)); cbn [rbind]; [|cbn [relRes simiSum fst snd]; split; auto].
  destruct (parseUint (currLit x)); cbn [rbind relRes simiSum fst snd]; split; auto.
Qed.

Definition lowerRel (a b : uintLit + diag) : Prop :=
  match a, b with inl x, inl y => stripU x = stripU y | inr x, inr y => noteD x = noteD y | _, _ => False end.

Lemma ends_simi : forall {A} (R : A -> A -> Prop) n n' (f g : position -> position -> res A), en n n' -> (forall a b a' b', relRes R (f a b) (g a' b')) ->
  relRes R (s <- node_start n;; e <- node_end n;; f s e) (s <- node_start n';; e <- node_end n';; g s e).
Proof.
  intros A R n n' f g H HF. eapply rel_bind; [apply start_en; exact H|]. intros a a' _. eapply rel_bind; [apply end_en; exact H|]. intros b b' _. apply HF.
Qed.

Lemma occLower_simi : forall n n' p q, en n n' -> simi p q -> relRes lowerRel (occLower n p) (occLower n' q).
Proof.
  intros n n' p q E H.
  assert (G : relRes lowerRel (s <- node_start n;; e <- node_end n;; Ok (inr (err (MOccType (curr p)) s e)))
    (s <- node_start n';; e <- node_end n';; Ok (inr (err (MOccType (curr q)) s e)))).
  { apply ends_simi; auto. intros. cbn [relRes lowerRel]. unfold noteD. cbn [err dMsg noteMsg]. same. reflexivity. }
  destruct n, n'; try discriminate E; try exact G.
  - cbn [occLower relRes lowerRel]. cbn [note strip] in E. congruence.
  - cbn [note strip] in E. injection E as <- <-. cbn [occLower]. destruct (v <? 0); [|reflexivity].
    apply (ends_simi lowerRel (NIntegerLiteral p0 t v) (NIntegerLiteral p1 t v)); auto.
    intros. cbn [relRes lowerRel]. unfold noteD. cbn [err dMsg noteMsg]. same. reflexivity.
Qed.

Lemma parseOccurrence_simi : forall pe pe' n n' p q, simiFn pe pe' -> en n n' -> simi p q ->
  relRes simiRes (parseOccurrence X pe n p) (parseOccurrence X pe' n' q).
Proof.
  intros pe pe' n n' p q HP E H. unfold parseOccurrence. eapply rel_bind; [apply occLower_simi; eauto|].
  intros [u|d] [u'|d'] HU; cbn [lowerRel] in HU; try contradiction.
  - eapply rel_bind; [apply occUpper_simi; eauto|]. intros [[w p1]|[d p1]] [[w' q1]|[d' q1]] HW; cbn [simiSum fst snd] in HW; try contradiction; destruct HW as [HW HL].
    + unfold peCurr. same. entry; ret.
    + ret.
  - ret.
Qed.

Lemma parseLitBound_simi : forall pe pe' b n n' p q, simiFn pe pe' -> en n n' -> simi p q ->
  relRes simiRes (parseLitBound X pe b n p) (parseLitBound X pe' b n' q).
Proof.
  intros pe pe' b n n' p q HP E H. unfold parseLitBound. next. unfold peCurr. same. entry; [ret|].
  destruct n0, n1; try discriminate HN; try (ret; fail); cbn [note strip] in HN; destruct b; try (ret; fail).
  - apply ends_simi; [exact HN|]. intros. ret. apply addTask_simi; auto. cbn [noteTask]. injection HN as HN. now rewrite HN.
  - apply ends_simi; [exact HN|]. intros. ret. apply addTask_simi; auto. cbn [noteTask]. injection HN as HN. now rewrite HN.
  - apply ends_simi; [exact HN|]. intros. ret.
  - apply ends_simi; [exact HN|]. intros. ret.
Qed.

Lemma parseBound_simi : forall pe pe' n n' p q, simiFn pe pe' -> en n n' -> simi p q ->
  relRes simiRes (parseBound X pe n p) (parseBound X pe' n' q).
Proof.
  intros pe pe' n n' p q HP E H. destruct n, n'; try discriminate E; try (cbn [parseBound]; ret; fail); cbn [parseBound].
  - cbn [note strip] in E. unfold parseIdentBound. next. unfold peCurr. same. entry; [ret|]. ret. apply addTask_simi; auto. cbn [noteTask note strip] in *. same. congruence.
  - now apply parseLitBound_simi.
  - now apply parseLitBound_simi.
Qed.

Lemma wrap_simi : forall n n', en n n' -> relRes (fun a b => en a b) (wrapBadNode n) (wrapBadNode n').
Proof. intros n n' E. unfold wrapBadNode. apply ends_simi; auto. intros. cbn [relRes note]. congruence. Qed.

Lemma runLed_simi : forall pe pe' k n n' p q, simiFn pe pe' -> en n n' -> simi p q -> currLit q = currLit p ->
  relRes simiRes (runLed X pe k n p) (runLed X pe' k n' q).
Proof.
  intros pe pe' k n n' p q HP E H EL. destruct k; cbn [runLed]; try (apply parseOccurrence_simi; auto; fail); try (apply parseBound_simi; auto; fail).
  - unfold parseColon. 
    assert (HK : option_map stripI (match n with NIdentifier i => Some i | NIntegerLiteral _ _ v => Some (mkIdent (pos p) (fmtD v)) | _ => None end) =
      option_map stripI (match n' with NIdentifier i => Some i | NIntegerLiteral _ _ v => Some (mkIdent (pos q) (fmtD v)) | _ => None end)).
    { destruct n, n'; try discriminate E; try reflexivity; cbn [note strip] in E; cbn [option_map]; [congruence|]. injection E as -> ->. reflexivity. }
    destruct (match n with NIdentifier i => Some i | NIntegerLiteral _ _ v => Some (mkIdent (pos p) (fmtD v)) | _ => None end) as [i|],
      (match n' with NIdentifier i => Some i | NIntegerLiteral _ _ v => Some (mkIdent (pos q) (fmtD v)) | _ => None end) as [i'|]; try discriminate HK.
    + cbn [option_map] in HK. next. unfold peCurr. same. entry; [ret|]. eapply rel_bind; [apply entryTrailing_simi; eassumption|]. intros [c r] [c' r'] [HC HR]. cbn [fst snd] in *. ret.
    + rewrite EL. ret.
  - unfold parseTypeChoice. next. unfold peCurr. same. entry; ret.
  - unfold parseComparatorOp. rewrite ?EL, <- (typeOf_en _ _ E). destruct (typeOf n) as [[]|]; try (ret; fail); next; unfold peCurr; same; entry; ret.
  - unfold parseSizeOperator. rewrite ?EL, <- (typeOf_en _ _ E). destruct (typeOf n) as [[]|]; try (ret; fail); next; unfold peCurr; same; entry; ret.
  - unfold parseRegexp. rewrite <- (typeOf_en _ _ E). destruct (typeOf n) as [[]|]; try exact I. same.
    assert (HB : option_map (fun pk : position * token => (z, snd pk)) (match n with NTstrType ps t => Some (ps, t) | _ => None end) =
      option_map (fun pk : position * token => (z, snd pk)) (match n' with NTstrType ps t => Some (ps, t) | _ => None end)).
    { destruct n, n'; try discriminate E; try reflexivity. cbn [note strip] in E. injection E as ->. reflexivity. }
    destruct (_ && _); [ret|]. next. unfold peCurr. same. entry; ret.
  - unfold parseBits. next. unfold peCurr. same. entry; [|ret]. eapply rel_bind; [apply wrap_simi; eassumption|]. intros a b HAB. cbv beta in HAB. ret.
  - unfold parseComma. ret.
Qed.

Lemma bracketLoop_simi : forall pe pe' stop keep, simiFn pe pe' -> (forall a b, en a b -> keep a = keep b) -> forall f acc acc' p q, simi p q -> map note acc = map note acc' ->
  relRes (fun a b => map note (fst (fst a)) = map note (fst (fst b)) /\ option_map noteD (snd (fst a)) = option_map noteD (snd (fst b)) /\ simi (snd a) (snd b))
    (bracketLoop X pe stop keep f acc p) (bracketLoop X pe' stop keep f acc' q).
Proof.
  intros pe pe' stop keep HP HK. induction f as [|f IH]; intros acc acc' p q H E; cbn [bracketLoop]; same; (destruct (teq (curr p) stop); [cbn; auto|]); [exact I|].
  unfold peCurr. same. entry; [cbn [relRes fst snd]; auto|]. eapply rel_bind; [apply pnext_s; eassumption|]. intros p2 q2 H2. apply IH; auto.
  rewrite (HK _ _ HN). destruct (keep _); auto. rewrite !map_app. cbn [map]. congruence.
Qed.

Lemma chooseNud_simi : forall p q, simi p q -> chooseNud q = chooseNud p.
Proof. intros p q H. unfold chooseNud. same. reflexivity. Qed.

Lemma nud_comment : forall p, curr p <> COMMENT -> chooseNud p <> Some NuComment.
Proof.
  intros p H E. unfold chooseNud in E. destruct (teq (curr p) IDENT && teq (peekTok p) COLON); [discriminate E|]. apply H. destruct (curr p); try discriminate E; reflexivity.
Qed.

Lemma runNud_simi : forall pe pe' f k p q, simiFn pe pe' -> simi p q -> curr p <> COMMENT -> k <> NuComment -> relRes simiRes (runNud X pe f k p) (runNud X pe' f k q).
Proof.
  intros pe pe' f k p q HP H NC NK. pose proof (si_lit _ _ H NC) as EL. destruct k; cbn [runNud]; try congruence;
    try (unfold parsePrefixOccurrence; apply parseOccurrence_simi; auto; fail); try (solve [ret]).
  - unfold parseIdentifier. rewrite EL. ret.
  - unfold parseNamedIdentifier. rewrite EL. destruct (currLit p) as [|c w] eqn:E; [exact I|]. ret. destruct (c =? 36); auto. apply addTask_simi; auto.
  - unfold parseBooleanLiteral. rewrite EL. destruct (beq _ _); [ret|]. destruct (beq _ _); ret.
  - unfold parseFloatType, parseFloatLiteral. same. rewrite ?EL. destruct (isLiteral _ _); [|ret]. destruct (xParseFloat _ _); ret.
  - unfold parseUintType, parseUintLiteral. same. rewrite ?EL. destruct (isLiteral _ _); [|ret]. destruct (parseUint _); ret.
  - unfold parseIntegerType, parseIntegerLiteral. same. rewrite ?EL. destruct (isLiteral _ _); [|ret]. destruct (parseInt _); ret.
  - unfold parseMap. next. eapply rel_bind; [apply bracketLoop_simi; eauto using notNil_en|]. intros [[l d] p2] [[l' d'] q2] (E1 & E2 & E3). cbn [fst snd] in *. ret.
  - unfold parseGroup. next. eapply rel_bind; [apply bracketLoop_simi; eauto using entry_en|]. intros [[l d] p2] [[l' d'] q2] (E1 & E2 & E3). cbn [fst snd] in *. ret.
  - unfold parseArray. next. eapply rel_bind; [apply bracketLoop_simi; eauto using entry_en|]. intros [[l d] p2] [[l' d'] q2] (E1 & E2 & E3). cbn [fst snd] in *. ret.
  - unfold parseOptional. next. unfold peCurr. same. entry; ret.
  - unfold parseUnwrap. next. unfold peCurr. same. entry; ret.
  - unfold parseTag. eapply rel_bind; [apply parseTagHead_simi; eassumption|].
    intros [[[a b] p1]|[d p1]] [[[a' b'] q1]|[d' q1]] HT; cbn [simiSum fst snd] in HT; try contradiction; destruct HT as [HT HL].
    + same. unfold stripUU in HT. cbn [fst snd] in HT. injection HT as HT1 HT2. destruct (teq (peekTok p1) LPAREN); [|ret]. next. next. unfold peCurr. same. entry; [ret|].
      eapply rel_bind; [apply expectPeek_simi; eassumption|]. intros p5 q5 H5. ret.
    + ret.
  - unfold parseEnumeration. next. unfold peCurr. same. entry; ret.
Qed.

Lemma teq_no : forall t u, teq t u = false -> t <> u.
Proof. intros t u H ->. destruct u; discriminate H. Qed.

(** After comments comes something else. *)
Lemma comments_end : forall f acc p l q, commentLoop X f acc p = Ok (l, q) -> peekTok q <> COMMENT.
Proof.
  induction f as [|f IH]; intros acc p l q H; cbn [commentLoop] in H; (destruct (teq (peekTok p) COMMENT) eqn:E; [|injection H as <- <-; now apply teq_no]); [discriminate H|].
  destruct (pnext X p); try discriminate H. cbn [rbind] in H. eauto.
Qed.

Lemma skip_simi : forall f p q, simi p q -> relRes (fun x y => simi x y /\ curr x <> COMMENT) (skipComments X f p) (skipComments X f q).
Proof.
  intros f p q H. unfold skipComments. same. destruct (teq (curr p) COMMENT) eqn:E; [|split; [exact H|now apply teq_no]].
  pose proof (parseComment_simi f p q H) as K. destruct (parseComment X f p) as [[[a b] c]| | |] eqn:EP, (parseComment X f q) as [[[a' b'] c']| | |]; cbn [relRes] in K; try contradiction; cbn [rbind]; try exact I.
  destruct K as (_ & _ & HL). cbn [snd] in HL. pose proof (pnext_simi _ _ HL) as K.
  assert (NC : peekTok c <> COMMENT).
  { unfold parseComment in EP. destruct (commentLoop X f [parseInnerComment p] p) as [[l r]| | |] eqn:EL; try discriminate EP. cbn [rbind] in EP.
    apply comments_end in EL. destruct l as [|? [|? ?]]; injection EP as _ _ <-; exact EL. }
  destruct (pnext X c), (pnext X c'); cbn [relRes] in *; auto. destruct K as [K1 K2]. split; auto. unfold curr. now rewrite K2.
Qed.

Lemma ledLoop_simi : forall pe pe' prec, simiFn pe pe' -> forall f n n' p q, en n n' -> simi p q ->
  relRes simiRes (ledLoop X pe f prec n p) (ledLoop X pe' f prec n' q).
Proof.
  intros pe pe' prec HP. induction f as [|f IH]; intros n n' p q E H; cbn [ledLoop]; same; (destruct (_ && _); [|ret]); (destruct (ledFor (peekTok p)) eqn:EK; [|ret]); [exact I|].
  next. assert (EL : currLit y = currLit x).
  { apply si_lit; auto. unfold curr. rewrite HCR. unfold peekTok in EK. destruct (tTok (pk p)); try discriminate EK; repeat split; discriminate. }
  eapply rel_bind; [apply runLed_simi; eassumption|]. intros [[m d] p2] [[m' d'] q2] (E1 & E2 & E3). cbn [fst snd] in *.
  destruct d, d'; try discriminate E2; [ret|]. apply IH; auto.
Qed.

Lemma parseEntry_simi : forall f, simiFn (parseEntry X f) (parseEntry X f).
Proof.
  induction f as [|f IH]; intros prec p q H; [exact I|]. cbn [parseEntry]. eapply rel_bind.
  - apply skip_simi. exact H.
  - intros p1 q1 [H1 NC]. rewrite (chooseNud_simi _ _ H1). destruct (chooseNud p1) as [k|] eqn:CN; [|unfold errorUnexpectedPrefix; ret].
    assert (NK : k <> NuComment) by (intros ->; exact (nud_comment _ NC CN)).
    eapply rel_bind; [apply runNud_simi; eassumption|]. intros [[m d] p2] [[m' d'] q2] (E1 & E2 & E3). cbn [fst snd] in *.
    destruct d, d'; try discriminate E2; [ret|]. apply ledLoop_simi; auto.
Qed.

Lemma assoc_simi : forall k e e', map noteDef e = map noteDef e' -> option_map note (assoc k e) = option_map note (assoc k e').
Proof.
  intros k. induction e as [|[w v] e IH]; intros [|[w' v'] e'] E; try discriminate E; auto. cbn [map noteDef fst snd] in E. injection E as <- HV E.
  cbn [assoc]. destruct (beq w k); [cbn [option_map]; congruence|]. now apply IH.
Qed.

Lemma exists_simi : forall k e e', map noteDef e = map noteDef e' -> exists_ e k = exists_ e' k.
Proof. intros k e e' E. apply (assoc_simi k) in E. unfold exists_. destruct (assoc k e), (assoc k e'); try discriminate E; reflexivity. Qed.

Lemma get_simi : forall k e e', map noteDef e = map noteDef e' -> en (get e k) (get e' k).
Proof. intros k e e' E. apply (assoc_simi k) in E. unfold get. destruct (assoc k e), (assoc k e'); try discriminate E; [|reflexivity]. now injection E. Qed.

Lemma setEnv_simi : forall p q e e', simi p q -> map noteDef e = map noteDef e' -> simi (setEnv p e) (setEnv q e').
Proof. intros p q e e' H E. constructor; try apply H. exact E. Qed.

Lemma registerRule_simi : forall i i' n n' p q, iName i = iName i' -> en n n' -> simi p q -> relRes simi (registerRule i n p) (registerRule i' n' q).
Proof.
  intros i i' n n' p q EI E H. unfold registerRule, add. rewrite <- EI, <- (exists_simi (iName i) _ _ (si_env _ _ H)).
  destruct (exists_ (env p) (iName i)); cbn [env setEnv].
  - eapply rel_bind; [apply start_en, get_simi, H|]. intros a b _. apply addDiag_simi; [apply setEnv_simi; auto; apply H|].
    unfold noteD, err. cbn [dMsg noteMsg]. reflexivity.
  - cbn [relRes]. apply setEnv_simi; auto. rewrite !map_app. cbn [map]. unfold noteDef at 2 4. cbn [fst snd]. rewrite E. f_equal. apply H.
Qed.

Lemma parseRule_simi : forall f p q, simi p q -> relRes topRes (parseRule X f p) (parseRule X f q).
Proof.
  intros f p q H. unfold parseRule. same. destruct (curr p) eqn:EC; try (unfold errorTokenExpected; ret; fail); [now apply parseComment_simi|].
  assert (EL : currLit q = currLit p) by (apply si_lit; auto; rewrite EC; repeat split; discriminate). rewrite EL.
  next. destruct (curr x); try (ret; fail).
  - next. eapply rel_bind; [apply parseEntry_simi; eassumption|]. intros [[m d] p2] [[m' d'] q2] (E1 & E2 & E3). cbn [fst snd] in *.
    destruct d, d'; try discriminate E2; [ret|]. eapply rel_bind; [apply ruleTrailing_simi; eassumption|]. intros [c r] [c' r'] [HC HR]. cbn [fst snd] in *.
    eapply rel_bind; [apply registerRule_simi; [|eassumption|eassumption]; reflexivity|]. intros p5 q5 H5. ret. unfold stripI. cbn [iName]. congruence.
  - next. eapply rel_bind; [apply parseEntry_simi; eassumption|]. intros [[m d] p2] [[m' d'] q2] (E1 & E2 & E3). cbn [fst snd] in *.
    destruct d, d'; try discriminate E2; [ret|]. eapply rel_bind; [apply ruleTrailing_simi; eassumption|]. intros [c r] [c' r'] [HC HR]. cbn [fst snd] in *. ret. unfold stripI. cbn [iName]. congruence.
  - next. eapply rel_bind; [apply parseEntry_simi; eassumption|]. intros [[m d] p2] [[m' d'] q2] (E1 & E2 & E3). cbn [fst snd] in *.
    destruct d, d'; try discriminate E2; [ret|]. eapply rel_bind; [apply ruleTrailing_simi; eassumption|]. intros [c r] [c' r'] [HC HR]. cbn [fst snd] in *. ret. unfold stripI. cbn [iName]. congruence.
Qed.

Lemma handle_simi : forall p q d d', simi p q -> option_map noteD d = option_map noteD d' -> simi (handle p d) (handle q d').
Proof. intros p q d d' H E. destruct d, d'; try discriminate E; auto. apply addDiag_simi; auto. cbn [option_map] in E. congruence. Qed.

Lemma notNil_top : forall a b, noteTop a = noteTop b -> notNil a = notNil b.
Proof. intros a b H. destruct a, b; try discriminate H; reflexivity. Qed.

Lemma fileLoop_simi : forall rf f acc acc' p q, simi p q -> map noteTop acc = map noteTop acc' ->
  relRes (simiPair (map noteTop)) (fileLoop X rf f acc p) (fileLoop X rf f acc' q).
Proof.
  intros rf. induction f as [|f IH]; intros acc acc' p q H E; cbn [fileLoop]; same; (destruct (teq (curr p) EOF); [split; auto|]); [exact I|].
  eapply rel_bind; [apply parseRule_simi; eassumption|]. intros [[m d] p1] [[m' d'] q1] (E1 & E2 & E3). cbn [fst snd] in *.
  eapply rel_bind; [apply pnext_s, handle_simi; eassumption|]. intros p2 q2 H2. apply IH; auto.
  rewrite (notNil_top _ _ E1). destruct (notNil m'); auto. rewrite !map_app. cbn [map]. congruence.
Qed.

Lemma runTask_simi : forall e e' t t', map noteDef e = map noteDef e' -> noteTask t = noteTask t' ->
  option_map noteD (runTask e t) = option_map noteD (runTask e' t').
Proof.
  intros e e' t t' HE HT. destruct t, t'; try discriminate HT; cbn [noteTask] in HT; cbn [runTask].
  - injection HT as <-. rewrite (exists_simi _ _ _ HE). destruct (exists_ e' name); reflexivity.
  - injection HT as <- HL HO. destruct to, to0; try discriminate HO; try reflexivity. cbn [note strip] in HO. injection HO as HO.
    unfold stripI in HL. rewrite <- HL, <- HO.
    pose proof (get_simi (iName left) _ _ HE) as G1. pose proof (get_simi (iName i) _ _ HE) as G2.
    unfold sameType. rewrite (typeOf_en _ _ G1), (typeOf_en _ _ G2).
    destruct (match typeOf (get e' (iName left)) with Some k => _ | None => _ end); auto.
    cbn [option_map]. unfold noteD, err. cbn [dMsg noteMsg]. now rewrite G1, G2.
  - injection HT as <-. rewrite (exists_simi _ _ _ HE), (typeOf_en _ _ (get_simi name _ _ HE)).
    destruct (exists_ e' name); [|reflexivity]. destruct (typeOf (get e' name)) as [[]|]; reflexivity.
  - injection HT as <-. rewrite (exists_simi _ _ _ HE), (typeOf_en _ _ (get_simi name _ _ HE)).
    destruct (exists_ e' name); [|reflexivity]. destruct (typeOf (get e' name)) as [[]|]; reflexivity.
Qed.

Lemma runTasks_simi : forall p q, simi p q -> simi (runTasks p) (runTasks q).
Proof.
  intros p q H. unfold runTasks. pose proof (si_env _ _ H) as HE. pose proof (si_tasks _ _ H) as HT.
  revert HE HT. generalize (env p) (env q) (tasks p) (tasks q). intros e e' ts ts' HE. revert ts' p q H.
  induction ts as [|t ts IH]; intros [|t' ts'] p q H HT; try discriminate HT; auto. cbn [map] in HT. injection HT as HT1 HT2.
  cbn [fold_left]. apply IH; auto. apply handle_simi; auto. now apply runTask_simi.
Qed.

(** Outcomes of a parse, positions and texts of comments apart. *)
Definition simiOut (a b : fileResult * parser) : Prop :=
  option_map noteFile (fst (fst a)) = option_map noteFile (fst (fst b)) /\
  option_map (map noteD) (snd (fst a)) = option_map (map noteD) (snd (fst b)) /\
  map noteD (perrors (snd a)) = map noteD (perrors (snd b)) /\
  map noteDef (env (snd a)) = map noteDef (env (snd b)) /\
  map noteTask (tasks (snd a)) = map noteTask (tasks (snd b)).

Theorem parseSource_simi : forall fuel s s' e e',
  (forall n, relRes (fun a b => Similar (fst a) (fst b)) (scans X n (newLexer s)) (scans X n (newLexer s'))) ->
  (forall t l t' l', scans X 2 (newLexer s) = Ok (t, l) -> scans X 2 (newLexer s') = Ok (t', l') -> (errors l = [] <-> errors l' = [])) ->
  map noteDef e = map noteDef e' ->
  relRes simiOut (parseSource X fuel s e) (parseSource X fuel s' e').
Proof.
  intros fuel s s' e e' HS HE HD. unfold parseSource. rewrite !newParser_toks. pose proof (HS 2%nat) as H2.
  destruct (scans X 2 (newLexer s)) as [[ts l]| | |] eqn:E1, (scans X 2 (newLexer s')) as [[ts' l']| | |] eqn:E2; cbn [relRes] in H2; try contradiction; cbn [rbind]; try exact I.
  pose proof (scans_len X _ _ _ _ E1) as L1. pose proof (scans_len X _ _ _ _ E2) as L2.
  destruct ts as [|t [|u [|? ?]]], ts' as [|t' [|u' [|? ?]]]; try discriminate L1; try discriminate L2. cbn [rbind].
  assert (HP : simi (mkParser l t u [] e []) (mkParser l' t' u' [] e' [])).
  { constructor; auto. intros n. cbn [cur pk lx]. specialize (HS (2 + n)%nat). rewrite !scans_app, E1, E2 in HS. cbn [rbind] in HS.
    destruct (scans X n l) as [[us m]| | |], (scans X n l') as [[us' m']| | |]; cbn [rbind relRes] in *; auto. }
  specialize (HE _ _ _ _ eq_refl eq_refl). unfold parseFile. cbn [lx]. destruct (errors l), (errors l').
  - eapply rel_bind; [apply fileLoop_simi; [eassumption|reflexivity]|]. intros [r p] [r' q] [ER HL]. cbn [fst snd] in *.
    pose proof (runTasks_simi _ _ HL) as HT. unfold simiOut. cbn [relRes fst snd option_map noteFile]. rewrite ER. repeat split; try apply HT.
    pose proof (si_errs _ _ HT) as HQ. unfold collect. destruct (perrors (runTasks p)), (perrors (runTasks q)); try discriminate HQ; auto. cbn [option_map]. now rewrite HQ.
  - destruct HE as [HE _]. specialize (HE eq_refl). discriminate.
  - destruct HE as [_ HE]. specialize (HE eq_refl). discriminate.
  - repeat split; try apply HP.
Qed.
End Notes.
