(** The parser looks at positions only to tell whether a comment is on the line of the token
    before it: two sources whose tokens differ in position only are parsed alike. *)
From Coq Require Import String.
From Verif Require Import Base Utf8 Token Strconv Ext Lexer Ast Env Diag Parser Doc ParseTwin.
Open Scope string_scope.
Open Scope list_scope.
Open Scope Z_scope.

(** ** Specification *)

Definition sameTok (t u : tokInfo) : Prop := tTok t = tTok u /\ tLit t = tLit u.

(** The same tokens, comments being on the line of the token before them in both or in neither. *)
Inductive Alike : list tokInfo -> list tokInfo -> Prop :=
| al_nil : Alike [] []
| al_one t t' : sameTok t t' -> Alike [t] [t']
| al_more t u ts t' u' ts' : sameTok t t' ->
    (tTok u = COMMENT -> (pLine (tPos t) = pLine (tPos u) <-> pLine (tPos t') = pLine (tPos u'))) ->
    Alike (u :: ts) (u' :: ts') -> Alike (t :: u :: ts) (t' :: u' :: ts').

(** Diagnostics, tasks and definitions without positions. *)
Definition bareMsg (m : msg) : msg :=
  match m with
  | MExpectedAt t _ _ => MExpectedAt t 0 0
  | MUnexpectedAt t _ _ => MUnexpectedAt t 0 0
  | MExisting w _ _ => MExisting w 0 0
  | MRangeTypes t l r a b => MRangeTypes t l r (strip a) (strip b)
  | _ => m
  end.
Definition bare (d : diag) : diag := mkDiag zeroPos zeroPos (bareMsg (dMsg d)).
Definition bareDef (b : bytes * node) : bytes * node := (fst b, strip (snd b)).

Definition bareTask (t : task) : task :=
  match t with
  | TExists w _ => TExists w zeroPos
  | TIdentBound k l to => TIdentBound k (stripI l) (strip to)
  | TIntBound w _ _ => TIntBound w zeroPos zeroPos
  | TFloatBound w _ _ => TFloatBound w zeroPos zeroPos
  end.

(** ** Trees *)

Notation sn a b := (strip a = strip b).

Lemma typeOf_sn : forall a b, sn a b -> typeOf a = typeOf b.
Proof.
  assert (G : forall n, typeOf (strip n) = typeOf n) by (destruct n; reflexivity).
  intros a b H. rewrite <- (G a), <- (G b). now rewrite H.
Qed.

Lemma entry_sn : forall a b, sn a b -> isGroupEntry a = isGroupEntry b.
Proof. intros a b H. unfold isGroupEntry. now rewrite (typeOf_sn _ _ H). Qed.

Lemma notNil_sn : forall a b, sn a b -> notNil a = notNil b.
Proof. intros a b H. destruct a, b; try discriminate H; reflexivity. Qed.

Definition any {A} (a b : A) : Prop := True.

Lemma start_strip : forall n, relRes any (node_start n) (node_start (strip n)).
Proof.
  induction n; cbn [node_start strip]; auto; try exact I.
  - destruct l; exact I.
  - destruct n; exact I.
  - destruct base as [[? ?]|]; exact I.
Qed.

Lemma end_strip : forall n, relRes any (node_end n) (node_end (strip n)).
Proof.
  fix IH 1. assert (G : forall l, relRes any
    ((fix le (l : list node) : res position := match l with [] => Ok noPos | [x] => node_end x | _ :: r => le r end) l)
    ((fix le (l : list node) : res position := match l with [] => Ok noPos | [x] => node_end x | _ :: r => le r end) (map strip l))).
  { fix G 1. intros l. destruct l as [|x l]; [exact I|]. pose proof (G l) as Gl. destruct l as [|y l]; [apply IH|exact Gl]. }
  intros n. destruct n; cbn [node_end strip]; try exact I; try apply IH; try apply G.
  - destruct l; exact I.
  - specialize (IH n). destruct (node_end n), (node_end (strip n)); cbn in *; auto.
  - destruct m; exact I.
Qed.

Lemma rel_any : forall {A} (a b c d : res A), relRes any a b -> relRes any c d -> b = d -> relRes any a c.
Proof. intros A a b c d H1 H2 <-. destruct a, b, c; cbn in *; auto; contradiction. Qed.

Lemma start_sn : forall a b, sn a b -> relRes any (node_start a) (node_start b).
Proof. intros a b H. eapply rel_any; [apply start_strip|apply start_strip|now rewrite H]. Qed.

Lemma end_sn : forall a b, sn a b -> relRes any (node_end a) (node_end b).
Proof. intros a b H. eapply rel_any; [apply end_strip|apply end_strip|now rewrite H]. Qed.

(** ** Parsers *)

Section Layout.
Variable X : Ext.

Record like (p q : parser) : Prop := mkLike {
  lk_toks : forall n, relRes (fun a b => Alike (cur p :: pk p :: fst a) (cur q :: pk q :: fst b)) (scans X n (lx p)) (scans X n (lx q));
  lk_errs : map bare (perrors p) = map bare (perrors q);
  lk_env : map bareDef (env p) = map bareDef (env q);
  lk_tasks : map bareTask (tasks p) = map bareTask (tasks q)
}.

Definition likeRes (a b : node * option diag * parser) : Prop :=
  sn (fst (fst a)) (fst (fst b)) /\ option_map bare (snd (fst a)) = option_map bare (snd (fst b)) /\ like (snd a) (snd b).

Lemma lk_now : forall p q, like p q -> Alike [cur p; pk p] [cur q; pk q].
Proof. intros p q H. exact (lk_toks _ _ H 0%nat). Qed.

Lemma lk_curr : forall p q, like p q -> curr q = curr p.
Proof. intros p q H. apply lk_now in H. inversion H as [| |? ? ? ? ? ? [E1 E2]]; subst. now symmetry. Qed.

Lemma lk_lit : forall p q, like p q -> currLit q = currLit p.
Proof. intros p q H. apply lk_now in H. inversion H as [| |? ? ? ? ? ? [E1 E2]]; subst. now symmetry. Qed.

Lemma lk_peek : forall p q, like p q -> peekTok q = peekTok p.
Proof. intros p q H. apply lk_now in H. inversion H as [| |? ? ? ? ? ? _ _ HA]; subst. inversion HA as [|? ? [E1 E2]|]; subst. now symmetry. Qed.

Lemma lk_peekLit : forall p q, like p q -> peekLit q = peekLit p.
Proof. intros p q H. apply lk_now in H. inversion H as [| |? ? ? ? ? ? _ _ HA]; subst. inversion HA as [|? ? [E1 E2]|]; subst. now symmetry. Qed.

Lemma lk_line : forall p q, like p q -> teq (peekTok q) COMMENT && isSameLineTokens (pos q) (peekPos q) = teq (peekTok p) COMMENT && isSameLineTokens (pos p) (peekPos p).
Proof.
  intros p q H. rewrite (lk_peek _ _ H). destruct (teq (peekTok p) COMMENT) eqn:E; auto. cbn [andb].
  apply lk_now in H. inversion H as [| |? ? ? ? ? ? _ HL _]; subst. unfold isSameLineTokens, pos, peekPos. unfold peekTok in E.
  assert (K : tTok (pk p) = COMMENT) by (destruct (tTok (pk p)); try discriminate E; reflexivity). specialize (HL K).
  destruct (pLine (tPos (cur q)) =? pLine (tPos (pk q))) eqn:E1, (pLine (tPos (cur p)) =? pLine (tPos (pk p))) eqn:E2; auto; exfalso.
  - apply Z.eqb_eq in E1. apply Z.eqb_neq in E2. apply E2. now apply HL.
  - apply Z.eqb_neq in E1. apply Z.eqb_eq in E2. apply E1. now apply HL.
Qed.

Lemma pnext_like : forall p q, like p q -> relRes like (pnext X p) (pnext X q).
Proof.
  intros p q H. unfold pnext. pose proof (lk_toks _ _ H 1%nat) as H1. cbn [scans] in H1.
  destruct (scan X (lx p)) as [[t l]| | |] eqn:E1, (scan X (lx q)) as [[t' l']| | |] eqn:E2; cbn [rbind relRes] in *; auto.
  constructor; cbn [cur pk lx perrors env tasks]; try apply H. intros n. pose proof (lk_toks _ _ H (S n)) as HN. cbn [scans] in HN. rewrite E1, E2 in HN. cbn [rbind] in HN.
  destruct (scans X n l) as [[ts m]| | |], (scans X n l') as [[ts' m']| | |]; cbn [rbind relRes fst] in *; auto. inversion HN; subst. assumption.
Qed.

Lemma addTask_like : forall p q t t', like p q -> bareTask t = bareTask t' -> like (addTask p t) (addTask q t').
Proof. intros p q t t' H E. constructor; try apply H. unfold addTask. cbn [tasks]. rewrite !map_app. cbn [map]. now rewrite (lk_tasks _ _ H), E. Qed.

Lemma addDiag_like : forall p q d d', like p q -> bare d = bare d' -> like (addDiag p d) (addDiag q d').
Proof. intros p q d d' H E. constructor; try apply H. unfold addDiag. cbn [perrors]. rewrite !map_app. cbn [map]. now rewrite (lk_errs _ _ H), E. Qed.

Definition likeFn (f g : entryFn) : Prop := forall prec p q, like p q -> relRes likeRes (f prec p) (g prec q).
Definition likePair {A B} (f : A -> B) (a b : A * parser) : Prop := f (fst a) = f (fst b) /\ like (snd a) (snd b).
Definition likeSum {A B} (f : A -> B) (a b : (A * parser) + (diag * parser)) : Prop :=
  match a, b with
  | inl x, inl y => f (fst x) = f (fst y) /\ like (snd x) (snd y)
  | inr x, inr y => bare (fst x) = bare (fst y) /\ like (snd x) (snd y)
  | _, _ => False
  end.

Ltac same := repeat match goal with H : like ?p ?q |- _ => progress rewrite ?(lk_line _ _ H), ?(lk_curr _ _ H), ?(lk_lit _ _ H), ?(lk_peek _ _ H), ?(lk_peekLit _ _ H) end.
Ltac ret := cbn [relRes]; unfold likeRes, likePair; cbn [fst snd]; split; [cbn [strip option_map]; same; try reflexivity; try congruence|
  match goal with |- _ /\ _ => split; [cbn [option_map] in *; try congruence; unfold bare, err; cbn [dMsg bareMsg]; same; try reflexivity; try congruence|] | _ => idtac end; try assumption].
Ltac next := eapply rel_bind; [apply pnext_like; eassumption|intros ? ? ?]; cbv beta; same.
Ltac entry := eapply rel_bind; [match goal with HP : likeFn _ _ |- _ => apply HP; eassumption end|
  let HN := fresh "HN" in let HG := fresh "HG" in let HL := fresh "HL" in intros [[? d] ?] [[? d'] ?] (HN & HG & HL); cbn [fst snd] in HN, HG, HL; destruct d as [d|], d' as [d'|]; try discriminate HG]; cbv beta; same.

Lemma commentLoop_like : forall f acc acc' p q, like p q -> map stripC acc = map stripC acc' ->
  relRes (likePair (map stripC)) (commentLoop X f acc p) (commentLoop X f acc' q).
Proof.
  induction f as [|f IH]; intros acc acc' p q H E; cbn [commentLoop]; same; (destruct (teq (peekTok p) COMMENT); [|split; auto]); [exact I|].
  next. apply IH; auto. rewrite !map_app. cbn [map]. rewrite E. unfold stripC, parseInnerComment. cbn [cText]. same. reflexivity.
Qed.

Lemma parseComment_like : forall f p q, like p q -> relRes likeRes (parseComment X f p) (parseComment X f q).
Proof.
  intros f p q H. unfold parseComment. eapply rel_bind.
  - apply commentLoop_like; [exact H|]. cbn [map]. unfold stripC, parseInnerComment. cbn [cText]. same. reflexivity.
  - intros [l p1] [l' q1] [E HL]. cbn [fst snd] in *. destruct l as [|c [|c1 l]], l' as [|c' [|c1' l']]; cbn [map] in E; try discriminate E; ret; cbn [map]; congruence.
Qed.

Lemma inner_like : forall p q, like p q -> stripC (parseInnerComment p) = stripC (parseInnerComment q).
Proof. intros p q H. unfold stripC, parseInnerComment. cbn [cText]. same. reflexivity. Qed.

Lemma entryTrailing_like : forall p q, like p q -> relRes (likePair (option_map stripC)) (entryTrailing X p) (entryTrailing X q).
Proof.
  intros p q H. unfold entryTrailing. same. destruct (_ && _); [|ret]. next. ret. cbn [option_map]. f_equal. now apply inner_like.
Qed.

Lemma ruleTrailing_like : forall p q, like p q -> relRes (likePair (option_map stripC)) (ruleTrailing X p) (ruleTrailing X q).
Proof.
  intros p q H. unfold ruleTrailing. same. destruct (_ && _); [|ret]. next. next. ret. cbn [option_map]. f_equal. now apply inner_like.
Qed.

Lemma expectPeek_like : forall t p q, like p q -> relRes like (expectPeek X t p) (expectPeek X t q).
Proof. intros t p q H. unfold expectPeek. same. destruct (teq (peekTok p) t); [now apply pnext_like|exact H]. Qed.

Definition stripUU (a : option uintLit * option uintLit) := (option_map stripU (fst a), option_map stripU (snd a)).

Lemma parseTagHead_like : forall p q, like p q -> relRes (likeSum stripUU) (parseTagHead X p) (parseTagHead X q).
Proof.
  intros p q H. unfold parseTagHead. same. destruct (peekTok p); try (cbn [relRes likeSum fst snd]; split; auto; fail).
  - next. destruct (parseUint (currLit x)); cbn [relRes likeSum fst snd]; split; auto.
  - next. unfold parseFloatTag. same. destruct (splitDot (currLit x)) as [|a [|b [|? ?]]]; try (cbn [relRes likeSum fst snd]; split; auto; fail).
    destruct (parseUint a); [cbn [relRes likeSum fst snd]; split; auto|]. destruct (parseUint b); cbn [relRes likeSum fst snd]; split; auto.
Qed.

Lemma occUpper_like : forall p q, like p q -> relRes (likeSum (option_map stripU)) (occUpper X p) (occUpper X q).
Proof.
  intros p q H. unfold occUpper. same. destruct (_ && _); next; [|cbn [relRes likeSum fst snd]; split; auto].
  unfold parseUintType, parseUintLiteral. same. destruct (isLiteral (curr x) (currLit x)); cbn [rbind]; [|cbn [relRes likeSum fst snd]; split; auto].
  destruct (parseUint (currLit x)); cbn [rbind relRes likeSum fst snd]; split; auto.
Qed.

Definition lowerRel (a b : uintLit + diag) : Prop :=
  match a, b with inl x, inl y => stripU x = stripU y | inr x, inr y => bare x = bare y | _, _ => False end.

Lemma ends_like : forall {A} (R : A -> A -> Prop) n n' (f g : position -> position -> res A), sn n n' -> (forall a b a' b', relRes R (f a b) (g a' b')) ->
  relRes R (s <- node_start n;; e <- node_end n;; f s e) (s <- node_start n';; e <- node_end n';; g s e).
Proof.
  intros A R n n' f g H HF. eapply rel_bind; [apply start_sn; exact H|]. intros a a' _. eapply rel_bind; [apply end_sn; exact H|]. intros b b' _. apply HF.
Qed.

Lemma occLower_like : forall n n' p q, sn n n' -> like p q -> relRes lowerRel (occLower n p) (occLower n' q).
Proof.
  intros n n' p q E H.
  assert (G : relRes lowerRel (s <- node_start n;; e <- node_end n;; Ok (inr (err (MOccType (curr p)) s e)))
    (s <- node_start n';; e <- node_end n';; Ok (inr (err (MOccType (curr q)) s e)))).
  { apply ends_like; auto. intros. cbn [relRes lowerRel]. unfold bare. cbn [err dMsg bareMsg]. same. reflexivity. }
  destruct n, n'; try discriminate E; try exact G.
  - cbn [occLower relRes lowerRel]. cbn [strip] in E. congruence.
  - cbn [strip] in E. injection E as <- <-. cbn [occLower]. destruct (v <? 0); [|reflexivity].
    apply (ends_like lowerRel (NIntegerLiteral p0 t v) (NIntegerLiteral p1 t v)); auto.
    intros. cbn [relRes lowerRel]. unfold bare. cbn [err dMsg bareMsg]. same. reflexivity.
Qed.

Lemma parseOccurrence_like : forall pe pe' n n' p q, likeFn pe pe' -> sn n n' -> like p q ->
  relRes likeRes (parseOccurrence X pe n p) (parseOccurrence X pe' n' q).
Proof.
  intros pe pe' n n' p q HP E H. unfold parseOccurrence. eapply rel_bind; [apply occLower_like; eauto|].
  intros [u|d] [u'|d'] HU; cbn [lowerRel] in HU; try contradiction.
  - eapply rel_bind; [apply occUpper_like; eauto|]. intros [[w p1]|[d p1]] [[w' q1]|[d' q1]] HW; cbn [likeSum fst snd] in HW; try contradiction; destruct HW as [HW HL].
    + unfold peCurr. same. entry; ret.
    + ret.
  - ret.
Qed.

Lemma parseLitBound_like : forall pe pe' b n n' p q, likeFn pe pe' -> sn n n' -> like p q ->
  relRes likeRes (parseLitBound X pe b n p) (parseLitBound X pe' b n' q).
Proof.
  intros pe pe' b n n' p q HP E H. unfold parseLitBound. next. unfold peCurr. same. entry; [ret|].
  destruct n0, n1; try discriminate HN; try (ret; fail); cbn [strip] in HN; destruct b; try (ret; fail).
  - apply ends_like; [exact HN|]. intros. ret. apply addTask_like; auto. cbn [bareTask]. injection HN as HN. now rewrite HN.
  - apply ends_like; [exact HN|]. intros. ret. apply addTask_like; auto. cbn [bareTask]. injection HN as HN. now rewrite HN.
  - apply ends_like; [exact HN|]. intros. ret.
  - apply ends_like; [exact HN|]. intros. ret.
Qed.

Lemma parseBound_like : forall pe pe' n n' p q, likeFn pe pe' -> sn n n' -> like p q ->
  relRes likeRes (parseBound X pe n p) (parseBound X pe' n' q).
Proof.
  intros pe pe' n n' p q HP E H. destruct n, n'; try discriminate E; try (cbn [parseBound]; ret; fail); cbn [parseBound].
  - cbn [strip] in E. unfold parseIdentBound. next. unfold peCurr. same. entry; [ret|]. ret. apply addTask_like; auto. cbn [bareTask strip] in *. same. congruence.
  - now apply parseLitBound_like.
  - now apply parseLitBound_like.
Qed.

Lemma wrap_like : forall n n', sn n n' -> relRes (fun a b => sn a b) (wrapBadNode n) (wrapBadNode n').
Proof. intros n n' E. unfold wrapBadNode. apply ends_like; auto. intros. cbn [relRes strip]. congruence. Qed.

Lemma runLed_like : forall pe pe' k n n' p q, likeFn pe pe' -> sn n n' -> like p q ->
  relRes likeRes (runLed X pe k n p) (runLed X pe' k n' q).
Proof.
  intros pe pe' k n n' p q HP E H. destruct k; cbn [runLed]; try (apply parseOccurrence_like; auto; fail); try (apply parseBound_like; auto; fail).
  - unfold parseColon. 
    assert (HK : option_map stripI (match n with NIdentifier i => Some i | NIntegerLiteral _ _ v => Some (mkIdent (pos p) (fmtD v)) | _ => None end) =
      option_map stripI (match n' with NIdentifier i => Some i | NIntegerLiteral _ _ v => Some (mkIdent (pos q) (fmtD v)) | _ => None end)).
    { destruct n, n'; try discriminate E; try reflexivity; cbn [strip] in E; cbn [option_map]; [congruence|]. injection E as -> ->. reflexivity. }
    destruct (match n with NIdentifier i => Some i | NIntegerLiteral _ _ v => Some (mkIdent (pos p) (fmtD v)) | _ => None end) as [i|],
      (match n' with NIdentifier i => Some i | NIntegerLiteral _ _ v => Some (mkIdent (pos q) (fmtD v)) | _ => None end) as [i'|]; try discriminate HK.
    + cbn [option_map] in HK. next. unfold peCurr. same. entry; [ret|]. eapply rel_bind; [apply entryTrailing_like; eassumption|]. intros [c r] [c' r'] [HC HR]. cbn [fst snd] in *. ret.
    + ret.
  - unfold parseTypeChoice. next. unfold peCurr. same. entry; ret.
  - unfold parseComparatorOp. rewrite <- (typeOf_sn _ _ E). destruct (typeOf n) as [[]|]; try (ret; fail); next; unfold peCurr; same; entry; ret.
  - unfold parseSizeOperator. rewrite <- (typeOf_sn _ _ E). destruct (typeOf n) as [[]|]; try (ret; fail); next; unfold peCurr; same; entry; ret.
  - unfold parseRegexp. rewrite <- (typeOf_sn _ _ E). destruct (typeOf n) as [[]|]; try exact I. same.
    assert (HB : option_map (fun pk : position * token => (z, snd pk)) (match n with NTstrType ps t => Some (ps, t) | _ => None end) =
      option_map (fun pk : position * token => (z, snd pk)) (match n' with NTstrType ps t => Some (ps, t) | _ => None end)).
    { destruct n, n'; try discriminate E; try reflexivity. cbn [strip] in E. injection E as ->. reflexivity. }
    destruct (_ && _); [ret|]. next. unfold peCurr. same. entry; ret.
  - unfold parseBits. next. unfold peCurr. same. entry; [|ret]. eapply rel_bind; [apply wrap_like; eassumption|]. intros a b HAB. cbv beta in HAB. ret.
  - unfold parseComma. ret.
Qed.

Lemma bracketLoop_like : forall pe pe' stop keep, likeFn pe pe' -> (forall a b, sn a b -> keep a = keep b) -> forall f acc acc' p q, like p q -> map strip acc = map strip acc' ->
  relRes (fun a b => map strip (fst (fst a)) = map strip (fst (fst b)) /\ option_map bare (snd (fst a)) = option_map bare (snd (fst b)) /\ like (snd a) (snd b))
    (bracketLoop X pe stop keep f acc p) (bracketLoop X pe' stop keep f acc' q).
Proof.
  intros pe pe' stop keep HP HK. induction f as [|f IH]; intros acc acc' p q H E; cbn [bracketLoop]; same; (destruct (teq (curr p) stop); [cbn; auto|]); [exact I|].
  unfold peCurr. same. entry; [cbn [relRes fst snd]; auto|]. eapply rel_bind; [apply pnext_like; eassumption|]. intros p2 q2 H2. apply IH; auto.
  rewrite (HK _ _ HN). destruct (keep _); auto. rewrite !map_app. cbn [map]. congruence.
Qed.

Lemma chooseNud_like : forall p q, like p q -> chooseNud q = chooseNud p.
Proof. intros p q H. unfold chooseNud. same. reflexivity. Qed.

Lemma runNud_like : forall pe pe' f k p q, likeFn pe pe' -> like p q -> relRes likeRes (runNud X pe f k p) (runNud X pe' f k q).
Proof.
  intros pe pe' f k p q HP H. destruct k; cbn [runNud]; try (apply parseComment_like; auto; fail);
    try (unfold parsePrefixOccurrence; apply parseOccurrence_like; auto; fail); try (solve [ret]).
  - unfold parseNamedIdentifier. same. destruct (currLit p) as [|c w] eqn:E; [exact I|]. ret.
    destruct (c =? 36); auto. apply addTask_like; auto.
  - unfold parseBooleanLiteral. same. destruct (beq _ _); [ret|]. destruct (beq _ _); ret.
  - unfold parseFloatType, parseFloatLiteral. same. destruct (isLiteral _ _); [|ret]. destruct (xParseFloat _ _); ret.
  - unfold parseUintType, parseUintLiteral. same. destruct (isLiteral _ _); [|ret]. destruct (parseUint _); ret.
  - unfold parseIntegerType, parseIntegerLiteral. same. destruct (isLiteral _ _); [|ret]. destruct (parseInt _); ret.
  - unfold parseMap. next. eapply rel_bind; [apply bracketLoop_like; eauto using notNil_sn|]. intros [[l d] p2] [[l' d'] q2] (E1 & E2 & E3). cbn [fst snd] in *. ret.
  - unfold parseGroup. next. eapply rel_bind; [apply bracketLoop_like; eauto using entry_sn|]. intros [[l d] p2] [[l' d'] q2] (E1 & E2 & E3). cbn [fst snd] in *. ret.
  - unfold parseArray. next. eapply rel_bind; [apply bracketLoop_like; eauto using entry_sn|]. intros [[l d] p2] [[l' d'] q2] (E1 & E2 & E3). cbn [fst snd] in *. ret.
  - unfold parseOptional. next. unfold peCurr. same. entry; ret.
  - unfold parseUnwrap. next. unfold peCurr. same. entry; ret.
  - unfold parseTag. eapply rel_bind; [apply parseTagHead_like; eassumption|].
    intros [[[a b] p1]|[d p1]] [[[a' b'] q1]|[d' q1]] HT; cbn [likeSum fst snd] in HT; try contradiction; destruct HT as [HT HL].
    + same. unfold stripUU in HT. cbn [fst snd] in HT. injection HT as HT1 HT2. destruct (teq (peekTok p1) LPAREN); [|ret]. next. next. unfold peCurr. same. entry; [ret|].
      eapply rel_bind; [apply expectPeek_like; eassumption|]. intros p5 q5 H5. ret.
    + ret.
  - unfold parseEnumeration. next. unfold peCurr. same. entry; ret.
Qed.

Lemma ledLoop_like : forall pe pe' prec, likeFn pe pe' -> forall f n n' p q, sn n n' -> like p q ->
  relRes likeRes (ledLoop X pe f prec n p) (ledLoop X pe' f prec n' q).
Proof.
  intros pe pe' prec HP. induction f as [|f IH]; intros n n' p q E H; cbn [ledLoop]; same; (destruct (_ && _); [|ret]); (destruct (ledFor (peekTok p)); [|ret]); [exact I|].
  next. eapply rel_bind; [apply runLed_like; eassumption|]. intros [[m d] p2] [[m' d'] q2] (E1 & E2 & E3). cbn [fst snd] in *.
  destruct d, d'; try discriminate E2; [ret|]. apply IH; auto.
Qed.

Lemma parseEntry_like : forall f, likeFn (parseEntry X f) (parseEntry X f).
Proof.
  induction f as [|f IH]; intros prec p q H; [exact I|]. cbn [parseEntry]. eapply rel_bind.
  - instantiate (1 := like). unfold skipComments. same. destruct (teq (curr p) COMMENT); [|exact H]. eapply rel_bind; [apply parseComment_like; exact H|].
    intros [[a b] c] [[a' b'] c'] (_ & _ & HL). cbn [snd] in HL. now apply pnext_like.
  - intros p1 q1 H1. rewrite (chooseNud_like _ _ H1). destruct (chooseNud p1); [|unfold errorUnexpectedPrefix; ret].
    eapply rel_bind; [apply runNud_like; eassumption|]. intros [[m d] p2] [[m' d'] q2] (E1 & E2 & E3). cbn [fst snd] in *.
    destruct d, d'; try discriminate E2; [ret|]. apply ledLoop_like; auto.
Qed.

Lemma assoc_like : forall k e e', map bareDef e = map bareDef e' -> option_map strip (assoc k e) = option_map strip (assoc k e').
Proof.
  intros k. induction e as [|[w v] e IH]; intros [|[w' v'] e'] E; try discriminate E; auto. cbn [map bareDef fst snd] in E. injection E as <- HV E.
  cbn [assoc]. destruct (beq w k); [cbn [option_map]; congruence|]. now apply IH.
Qed.

Lemma exists_like : forall k e e', map bareDef e = map bareDef e' -> exists_ e k = exists_ e' k.
Proof. intros k e e' E. apply (assoc_like k) in E. unfold exists_. destruct (assoc k e), (assoc k e'); try discriminate E; reflexivity. Qed.

Lemma get_like : forall k e e', map bareDef e = map bareDef e' -> sn (get e k) (get e' k).
Proof. intros k e e' E. apply (assoc_like k) in E. unfold get. destruct (assoc k e), (assoc k e'); try discriminate E; [|reflexivity]. now injection E. Qed.

Lemma setEnv_like : forall p q e e', like p q -> map bareDef e = map bareDef e' -> like (setEnv p e) (setEnv q e').
Proof. intros p q e e' H E. constructor; try apply H. exact E. Qed.

Lemma registerRule_like : forall i i' n n' p q, iName i = iName i' -> sn n n' -> like p q -> relRes like (registerRule i n p) (registerRule i' n' q).
Proof.
  intros i i' n n' p q EI E H. unfold registerRule, add. rewrite <- EI, <- (exists_like (iName i) _ _ (lk_env _ _ H)).
  destruct (exists_ (env p) (iName i)); cbn [env setEnv].
  - eapply rel_bind; [apply start_sn, get_like, H|]. intros a b _. apply addDiag_like; [apply setEnv_like; auto; apply H|].
    unfold bare, err. cbn [dMsg bareMsg]. reflexivity.
  - cbn [relRes]. apply setEnv_like; auto. rewrite !map_app. cbn [map]. unfold bareDef at 2 4. cbn [fst snd]. rewrite E. f_equal. apply H.
Qed.

Lemma parseRule_like : forall f p q, like p q -> relRes likeRes (parseRule X f p) (parseRule X f q).
Proof.
  intros f p q H. unfold parseRule. same. destruct (curr p); try (unfold errorTokenExpected; ret; fail); [now apply parseComment_like|].
  next. destruct (curr x); try (ret; fail).
  - next. eapply rel_bind; [apply parseEntry_like; eassumption|]. intros [[m d] p2] [[m' d'] q2] (E1 & E2 & E3). cbn [fst snd] in *.
    destruct d, d'; try discriminate E2; [ret|]. eapply rel_bind; [apply ruleTrailing_like; eassumption|]. intros [c r] [c' r'] [HC HR]. cbn [fst snd] in *.
    eapply rel_bind; [apply registerRule_like; [|eassumption|eassumption]; reflexivity|]. intros p5 q5 H5. ret. unfold stripI. cbn [iName]. congruence.
  - next. eapply rel_bind; [apply parseEntry_like; eassumption|]. intros [[m d] p2] [[m' d'] q2] (E1 & E2 & E3). cbn [fst snd] in *.
    destruct d, d'; try discriminate E2; [ret|]. eapply rel_bind; [apply ruleTrailing_like; eassumption|]. intros [c r] [c' r'] [HC HR]. cbn [fst snd] in *. ret. unfold stripI. cbn [iName]. congruence.
  - next. eapply rel_bind; [apply parseEntry_like; eassumption|]. intros [[m d] p2] [[m' d'] q2] (E1 & E2 & E3). cbn [fst snd] in *.
    destruct d, d'; try discriminate E2; [ret|]. eapply rel_bind; [apply ruleTrailing_like; eassumption|]. intros [c r] [c' r'] [HC HR]. cbn [fst snd] in *. ret. unfold stripI. cbn [iName]. congruence.
Qed.

Lemma handle_like : forall p q d d', like p q -> option_map bare d = option_map bare d' -> like (handle p d) (handle q d').
Proof. intros p q d d' H E. destruct d, d'; try discriminate E; auto. apply addDiag_like; auto. cbn [option_map] in E. congruence. Qed.

Lemma fileLoop_like : forall rf f acc acc' p q, like p q -> map strip acc = map strip acc' ->
  relRes (likePair (map strip)) (fileLoop X rf f acc p) (fileLoop X rf f acc' q).
Proof.
  intros rf. induction f as [|f IH]; intros acc acc' p q H E; cbn [fileLoop]; same; (destruct (teq (curr p) EOF); [split; auto|]); [exact I|].
  eapply rel_bind; [apply parseRule_like; eassumption|]. intros [[m d] p1] [[m' d'] q1] (E1 & E2 & E3). cbn [fst snd] in *.
  eapply rel_bind; [apply pnext_like, handle_like; eassumption|]. intros p2 q2 H2. apply IH; auto.
  rewrite (notNil_sn _ _ E1). destruct (notNil m'); auto. rewrite !map_app. cbn [map]. congruence.
Qed.

Lemma runTask_like : forall e e' t t', map bareDef e = map bareDef e' -> bareTask t = bareTask t' ->
  option_map bare (runTask e t) = option_map bare (runTask e' t').
Proof.
  intros e e' t t' HE HT. destruct t, t'; try discriminate HT; cbn [bareTask] in HT; cbn [runTask].
  - injection HT as <-. rewrite (exists_like _ _ _ HE). destruct (exists_ e' name); reflexivity.
  - injection HT as <- HL HO. destruct to, to0; try discriminate HO; try reflexivity. cbn [strip] in HO. injection HO as HO.
    unfold stripI in HL. rewrite <- HL, <- HO.
    pose proof (get_like (iName left) _ _ HE) as G1. pose proof (get_like (iName i) _ _ HE) as G2.
    unfold sameType. rewrite (typeOf_sn _ _ G1), (typeOf_sn _ _ G2).
    destruct (match typeOf (get e' (iName left)) with Some k => _ | None => _ end); auto.
    cbn [option_map]. unfold bare, err. cbn [dMsg bareMsg]. now rewrite G1, G2.
  - injection HT as <-. rewrite (exists_like _ _ _ HE), (typeOf_sn _ _ (get_like name _ _ HE)).
    destruct (exists_ e' name); [|reflexivity]. destruct (typeOf (get e' name)) as [[]|]; reflexivity.
  - injection HT as <-. rewrite (exists_like _ _ _ HE), (typeOf_sn _ _ (get_like name _ _ HE)).
    destruct (exists_ e' name); [|reflexivity]. destruct (typeOf (get e' name)) as [[]|]; reflexivity.
Qed.

Lemma runTasks_like : forall p q, like p q -> like (runTasks p) (runTasks q).
Proof.
  intros p q H. unfold runTasks. pose proof (lk_env _ _ H) as HE. pose proof (lk_tasks _ _ H) as HT.
  revert HE HT. generalize (env p) (env q) (tasks p) (tasks q). intros e e' ts ts' HE. revert ts' p q H.
  induction ts as [|t ts IH]; intros [|t' ts'] p q H HT; try discriminate HT; auto. cbn [map] in HT. injection HT as HT1 HT2.
  cbn [fold_left]. apply IH; auto. apply handle_like; auto. now apply runTask_like.
Qed.

Lemma newParser_toks : forall l e, newParser X l e = ('(ts, l2) <- scans X 2 l;; match ts with [t; u] => Ok (mkParser l2 t u [] e []) | _ => Panic end).
Proof.
  intros l e. unfold newParser, pnext. cbn [lx pk perrors env tasks scans]. destruct (scan X l) as [[a b]| | |]; auto. cbn [rbind lx pk perrors env tasks].
  destruct (scan X b) as [[a' b']| | |]; auto.
Qed.

Lemma scans_app : forall n l m, scans X (n + m) l = ('(ts, l1) <- scans X n l;; '(us, l2) <- scans X m l1;; Ok (ts ++ us, l2)).
Proof.
  induction n as [|n IH]; intros l m; cbn [Nat.add scans rbind].
  - destruct (scans X m l) as [[us l2]| | |]; auto.
  - destruct (scan X l) as [[t l1]| | |]; auto. cbn [rbind]. rewrite IH. destruct (scans X n l1) as [[ts l2]| | |]; auto. cbn [rbind].
    destruct (scans X m l2) as [[us l3]| | |]; auto.
Qed.

Lemma scans_len : forall n l ts l', scans X n l = Ok (ts, l') -> length ts = n.
Proof.
  induction n as [|n IH]; intros l ts l' H; cbn [scans] in H; [now injection H as <- <-|].
  destruct (scan X l) as [[t l1]| | |]; try discriminate H. cbn [rbind] in H. destruct (scans X n l1) as [[us l2]| | |] eqn:E; try discriminate H.
  cbn [rbind] in H. injection H as <- <-. cbn [length]. f_equal. eauto.
Qed.

(** Outcomes of a parse, positions apart. *)
Definition likeOut (a b : fileResult * parser) : Prop :=
  option_map strip (fst (fst a)) = option_map strip (fst (fst b)) /\
  option_map (map bare) (snd (fst a)) = option_map (map bare) (snd (fst b)) /\
  map bare (perrors (snd a)) = map bare (perrors (snd b)) /\
  map bareDef (env (snd a)) = map bareDef (env (snd b)) /\
  map bareTask (tasks (snd a)) = map bareTask (tasks (snd b)).

Theorem parseSource_like : forall fuel s s' e e',
  (forall n, relRes (fun a b => Alike (fst a) (fst b)) (scans X n (newLexer s)) (scans X n (newLexer s'))) ->
  (forall t l t' l', scans X 2 (newLexer s) = Ok (t, l) -> scans X 2 (newLexer s') = Ok (t', l') -> (errors l = [] <-> errors l' = [])) ->
  map bareDef e = map bareDef e' ->
  relRes likeOut (parseSource X fuel s e) (parseSource X fuel s' e').
Proof.
  intros fuel s s' e e' HS HE HD. unfold parseSource. rewrite !newParser_toks. pose proof (HS 2%nat) as H2.
  destruct (scans X 2 (newLexer s)) as [[ts l]| | |] eqn:E1, (scans X 2 (newLexer s')) as [[ts' l']| | |] eqn:E2; cbn [relRes] in H2; try contradiction; cbn [rbind]; try exact I.
  pose proof (scans_len _ _ _ _ E1) as L1. pose proof (scans_len _ _ _ _ E2) as L2.
  destruct ts as [|t [|u [|? ?]]], ts' as [|t' [|u' [|? ?]]]; try discriminate L1; try discriminate L2. cbn [rbind].
  assert (HP : like (mkParser l t u [] e []) (mkParser l' t' u' [] e' [])).
  { constructor; auto. intros n. cbn [cur pk lx]. specialize (HS (2 + n)%nat). rewrite !scans_app, E1, E2 in HS. cbn [rbind] in HS.
    destruct (scans X n l) as [[us m]| | |], (scans X n l') as [[us' m']| | |]; cbn [rbind relRes] in *; auto. }
  specialize (HE _ _ _ _ eq_refl eq_refl). unfold parseFile. cbn [lx]. destruct (errors l), (errors l').
  - eapply rel_bind; [apply fileLoop_like; [eassumption|reflexivity]|]. intros [r p] [r' q] [ER HL]. cbn [fst snd] in *.
    pose proof (runTasks_like _ _ HL) as HT. unfold likeOut. cbn [relRes fst snd option_map strip]. rewrite ER. repeat split; try apply HT.
    pose proof (lk_errs _ _ HT) as HQ. unfold collect. destruct (perrors (runTasks p)), (perrors (runTasks q)); try discriminate HQ; auto. cbn [option_map]. now rewrite HQ.
  - destruct HE as [HE _]. specialize (HE eq_refl). discriminate.
  - destruct HE as [_ HE]. specialize (HE eq_refl). discriminate.
  - repeat split; try apply HP.
Qed.
End Layout.
