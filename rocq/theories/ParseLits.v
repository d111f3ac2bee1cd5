(** The parser looks at the values of literals and the texts of comments only to tell whether
    it can read them: sources whose tokens differ in them are parsed alike. Made after [ParseLayout]. *)
From Coq Require Import String.
From Verif Require Import Base Utf8 Token Strconv Ext Lexer Ast Env Diag Parser Doc StrconvProofs ParseTwin ParseLayout.
Open Scope string_scope.
Open Scope list_scope.
Open Scope Z_scope.

(** ** Specification *)

(** Trees without positions, values of literals and texts of comments. The key of an entry that
    was written as a number is a literal too. *)
Definition numberKey (w : bytes) : bool := match w with c :: _ => (c =? 45) || ((48 <=? c) && (c <=? 57)) | [] => true end.
Definition eraseKey (i : ident) : ident := mkIdent z (if numberKey (iName i) then [] else iName i).
Definition eraseU (u : uintLit) : uintLit := mkUint z (uTok u) 0.
Definition eraseC (c : comment) : comment := mkComment z [].

Fixpoint erase (n : node) : node :=
  match n with
  | NNil => NNil
  | NTypedNil k => NTypedNil k
  | NIdentifier i => NIdentifier (stripI i)
  | NComment c => NComment (eraseC c)
  | NCommentGroup l => NCommentGroup (map eraseC l)
  | NBooleanType _ t => NBooleanType z t
  | NBooleanLiteral _ b => NBooleanLiteral zr b
  | NTstrType _ t => NTstrType z t
  | NTextLiteral _ t _ => NTextLiteral z t []
  | NFloatType _ t b => NFloatType z t b
  | NFloatLiteral _ t _ => NFloatLiteral zr t 0
  | NUintType _ t => NUintType zr t
  | NUintLiteral u => NUintLiteral (eraseU u)
  | NIntegerType _ t => NIntegerType z t
  | NNegativeIntegerType _ t => NNegativeIntegerType z t
  | NIntegerLiteral _ t v => NIntegerLiteral z t (if v <? 0 then -1 else 0)
  | NBstrType _ t => NBstrType z t
  | NBytesType _ t => NBytesType z t
  | NNullType _ t => NNullType z t
  | NEntry _ i v c => NEntry z (eraseKey i) (erase v) (option_map eraseC c)
  | NTypeChoice _ t a b => NTypeChoice z t (erase a) (erase b)
  | NGroupChoice _ t a b => NGroupChoice z t (erase a) (erase b)
  | NUnwrap _ t i => NUnwrap z t (erase i)
  | NTag _ t a b i => NTag z t (option_map eraseU a) (option_map eraseU b) (erase i)
  | NEnumeration _ t v => NEnumeration z t (erase v)
  | NOptional _ t i => NOptional z t (erase i)
  | NNMOccurrence _ t a b i => NNMOccurrence z t (option_map eraseU a) (option_map eraseU b) (erase i)
  | NSizeOp _ t a b => NSizeOp z t (erase a) (erase b)
  | NRegexp _ t b r => NRegexp z t (option_map (fun pk => (z, snd pk)) b) (erase r)
  | NBits _ t a b => NBits z t (erase a) (erase b)
  | NComparator _ t o a b => NComparator z t o (erase a) (erase b)
  | NRange _ t a b => NRange z t (erase a) (erase b)
  | NGroup _ l => NGroup z (map erase l)
  | NMap _ t l => NMap z t (map erase l)
  | NArray _ l => NArray z (map erase l)
  | NBadNode _ t b _ => NBadNode z t (erase b) z
  | NRule _ i v c => NRule z (stripI i) (erase v) (option_map eraseC c)
  | NCDDL _ l => NCDDL z (map erase l)
  end.

(** How a number can be read as the head of a tag. *)
Definition tagClass (w : bytes) : Z :=
  match splitDot w with
  | [a; b] => match parseUint a, parseUint b with inl _, _ => 1 | inr _, inl _ => 2 | inr _, inr _ => 3 end
  | _ => 0
  end.

Definition goodInt (w : bytes) : Prop := isLiteral INT w = true /\ (exists v, parseInt w = inr v /\ 0 <= v) /\ exists v, parseUint w = inr v.

(** Tokens of one kind that can be read in the same way: comments and texts any, others unless equal
    integers that fit, or numbers with a fraction or exponent that can be read. *)
Definition alikeTok (X : Ext) (t u : tokInfo) : Prop :=
  tTok t = tTok u /\
  match tTok t with
  | COMMENT | TEXT_LITERAL => True
  | INT => tLit t = tLit u \/ (goodInt (tLit t) /\ goodInt (tLit u))
  | FLOAT => tLit t = tLit u \/ (isLiteral FLOAT (tLit t) = true /\ isLiteral FLOAT (tLit u) = true /\
      xParseFloat X (tLit t) <> None /\ xParseFloat X (tLit u) <> None /\ tagClass (tLit t) = tagClass (tLit u))
  | _ => tLit t = tLit u
  end.

(** Such tokens, comments being on the line of the token before them in both or in neither. *)
Inductive Similar (X : Ext) : list tokInfo -> list tokInfo -> Prop :=
| si_nil : Similar X [] []
| si_one t t' : alikeTok X t t' -> Similar X [t] [t']
| si_more t u ts t' u' ts' : alikeTok X t t' ->
    (tTok u = COMMENT -> (pLine (tPos t) = pLine (tPos u) <-> pLine (tPos t') = pLine (tPos u'))) ->
    Similar X (u :: ts) (u' :: ts') -> Similar X (t :: u :: ts) (t' :: u' :: ts').

(** Diagnostics, tasks and definitions without these. *)
Definition eraseMsg (m : msg) : msg :=
  match m with
  | MExpectedAt t _ _ => MExpectedAt t 0 0
  | MUnexpectedAt t _ _ => MUnexpectedAt t 0 0
  | MExisting w _ _ => MExisting w 0 0
  | MRangeTypes t l r a b => MRangeTypes t l r (erase a) (erase b)
  | MInvalidTag _ => MInvalidTag []
  | MNumError _ _ => MNumError ErrSyntax []
  | MOccLower _ t => MOccLower 0 t
  | _ => m
  end.
Definition eraseD (d : diag) : diag := mkDiag zeroPos zeroPos (eraseMsg (dMsg d)).
Definition eraseDef (b : bytes * node) : bytes * node := (fst b, erase (snd b)).

Definition eraseTask (t : task) : task :=
  match t with
  | TExists w _ => TExists w zeroPos
  | TIdentBound k l to => TIdentBound k (stripI l) (erase to)
  | TIntBound w _ _ => TIntBound w zeroPos zeroPos
  | TFloatBound w _ _ => TFloatBound w zeroPos zeroPos
  end.

(** ** Trees *)

Notation en a b := (erase a = erase b).

Lemma typeOf_en : forall a b, en a b -> typeOf a = typeOf b.
Proof.
  assert (G : forall n, typeOf (erase n) = typeOf n) by (destruct n; reflexivity).
  intros a b H. rewrite <- (G a), <- (G b). now rewrite H.
Qed.

Lemma entry_en : forall a b, en a b -> isGroupEntry a = isGroupEntry b.
Proof. intros a b H. unfold isGroupEntry. now rewrite (typeOf_en _ _ H). Qed.

Lemma notNil_en : forall a b, en a b -> notNil a = notNil b.
Proof. intros a b H. destruct a, b; try discriminate H; reflexivity. Qed.

Lemma start_erase : forall n, relRes any (node_start n) (node_start (erase n)).
Proof.
  induction n; cbn [node_start erase]; auto; try exact I.
  - destruct l; exact I.
  - destruct n; exact I.
  - destruct base as [[? ?]|]; exact I.
Qed.

Lemma end_erase : forall n, relRes any (node_end n) (node_end (erase n)).
Proof.
  fix IH 1. assert (G : forall l, relRes any
    ((fix le (l : list node) : res position := match l with [] => Ok noPos | [x] => node_end x | _ :: r => le r end) l)
    ((fix le (l : list node) : res position := match l with [] => Ok noPos | [x] => node_end x | _ :: r => le r end) (map erase l))).
  { fix G 1. intros l. destruct l as [|x l]; [exact I|]. pose proof (G l) as Gl. destruct l as [|y l]; [apply IH|exact Gl]. }
  intros n. destruct n; cbn [node_end erase]; try exact I; try apply IH; try apply G.
  - destruct l; exact I.
  - specialize (IH n). destruct (node_end n), (node_end (erase n)); cbn in *; auto.
  - destruct m; exact I.
Qed.

Lemma start_en : forall a b, en a b -> relRes any (node_start a) (node_start b).
Proof. intros a b H. eapply rel_any; [apply start_erase|apply start_erase|now rewrite H]. Qed.

Lemma end_en : forall a b, en a b -> relRes any (node_end a) (node_end b).
Proof. intros a b H. eapply rel_any; [apply end_erase|apply end_erase|now rewrite H]. Qed.

(** ** Parsers *)

Section Lits.
Variable X : Ext.

Record simi (p q : parser) : Prop := mkSimi {
  si_toks : forall n, relRes (fun a b => Similar X (cur p :: pk p :: fst a) (cur q :: pk q :: fst b)) (scans X n (lx p)) (scans X n (lx q));
  si_errs : map eraseD (perrors p) = map eraseD (perrors q);
  si_env : map eraseDef (env p) = map eraseDef (env q);
  si_tasks : map eraseTask (tasks p) = map eraseTask (tasks q)
}.

Definition simiRes (a b : node * option diag * parser) : Prop :=
  en (fst (fst a)) (fst (fst b)) /\ option_map eraseD (snd (fst a)) = option_map eraseD (snd (fst b)) /\ simi (snd a) (snd b).

Lemma si_now : forall p q, simi p q -> Similar X [cur p; pk p] [cur q; pk q].
Proof. intros p q H. exact (si_toks _ _ H 0%nat). Qed.

Lemma si_curr : forall p q, simi p q -> curr q = curr p.
Proof. intros p q H. apply si_now in H. inversion H as [| |? ? ? ? ? ? [E1 E2]]; subst. now symmetry. Qed.

Lemma si_tok : forall p q, simi p q -> alikeTok X (cur p) (cur q).
Proof. intros p q H. apply si_now in H. inversion H; subst; auto. Qed.

(** Tokens whose literals have to be the same. *)
Definition fixed (t : token) : Prop := t <> COMMENT /\ t <> TEXT_LITERAL /\ t <> INT /\ t <> FLOAT.

Lemma si_lit : forall p q, simi p q -> fixed (curr p) -> currLit q = currLit p.
Proof.
  intros p q H (F1 & F2 & F3 & F4). pose proof (si_tok _ _ H) as [_ K]. unfold curr, currLit in *. destruct (tTok (cur p)); try contradiction; now symmetry.
Qed.

Lemma alike_isLit : forall t u, alikeTok X t u -> isLiteral (tTok t) (tLit u) = isLiteral (tTok t) (tLit t).
Proof.
  intros t u [_ K]. destruct (tTok t) eqn:E; try (now rewrite K); try reflexivity.
  - destruct K as [K|[[K1 _] [K2 _]]]; congruence.
  - destruct K as [K|(K1 & K2 & _)]; congruence.
Qed.

Lemma si_isLit : forall p q, simi p q -> isLiteral (curr p) (currLit q) = isLiteral (curr p) (currLit p).
Proof. intros p q H. apply alike_isLit. now apply si_tok. Qed.

Lemma si_peekLit : forall p q, simi p q -> isLiteral (peekTok p) (peekLit q) = isLiteral (peekTok p) (peekLit p).
Proof. intros p q H. apply si_now in H. inversion H as [| |? ? ? ? ? ? _ _ HA]; subst. inversion HA; subst. now apply alike_isLit. Qed.

Definition okNum {A} (a b : numErr + A) : Prop := match a, b with inl _, inl _ | inr _, inr _ => True | _, _ => False end.

Lemma okNum_refl : forall {A} (a : numErr + A), okNum a a.
Proof. intros A []; exact I. Qed.

Lemma si_uint : forall p q, simi p q -> curr p = INT -> okNum (parseUint (currLit p)) (parseUint (currLit q)).
Proof.
  intros p q H E. pose proof (si_tok _ _ H) as [_ K]. unfold curr, currLit in *. rewrite E in K. destruct K as [->|[(_ & _ & v & ->) (_ & _ & w & ->)]]; [apply okNum_refl|exact I].
Qed.

Lemma si_int : forall p q, simi p q -> curr p = INT -> match parseInt (currLit p), parseInt (currLit q) with
  | inl _, inl _ => True | inr v, inr w => (v <? 0) = (w <? 0) | _, _ => False end.
Proof.
  intros p q H E. pose proof (si_tok _ _ H) as [_ K]. unfold curr, currLit in *. rewrite E in K.
  destruct K as [->|[(_ & (v & -> & V) & _) (_ & (w & -> & W) & _)]]; [destruct (parseInt (tLit (cur q))); auto|].
  rewrite (proj2 (Z.ltb_ge v 0)), (proj2 (Z.ltb_ge w 0)) by lia. reflexivity.
Qed.

Lemma si_float : forall p q, simi p q -> curr p = FLOAT -> match xParseFloat X (currLit p), xParseFloat X (currLit q) with
  | None, None => True | Some _, Some _ => True | _, _ => False end.
Proof.
  intros p q H E. pose proof (si_tok _ _ H) as [_ K]. unfold curr, currLit in *. rewrite E in K.
  destruct K as [->|(_ & _ & K1 & K2 & _)]; [destruct (xParseFloat X (tLit (cur q))); auto|].
  destruct (xParseFloat X (tLit (cur p))), (xParseFloat X (tLit (cur q))); auto; congruence.
Qed.

Lemma si_class : forall p q, simi p q -> curr p = FLOAT -> tagClass (currLit p) = tagClass (currLit q).
Proof.
  intros p q H E. pose proof (si_tok _ _ H) as [_ K]. unfold curr, currLit in *. rewrite E in K. destruct K as [->|(_ & _ & _ & _ & K)]; auto.
Qed.

Lemma si_peek : forall p q, simi p q -> peekTok q = peekTok p.
Proof. intros p q H. apply si_now in H. inversion H as [| |? ? ? ? ? ? _ _ HA]; subst. inversion HA as [|? ? [E1 E2]|]; subst. now symmetry. Qed.

Lemma si_line : forall p q, simi p q -> teq (peekTok q) COMMENT && isSameLineTokens (pos q) (peekPos q) = teq (peekTok p) COMMENT && isSameLineTokens (pos p) (peekPos p).
Proof.
  intros p q H. rewrite (si_peek _ _ H). destruct (teq (peekTok p) COMMENT) eqn:E; auto. cbn [andb].
  apply si_now in H. inversion H as [| |? ? ? ? ? ? _ HL _]; subst. unfold isSameLineTokens, pos, peekPos. unfold peekTok in E.
  assert (K : tTok (pk p) = COMMENT) by (destruct (tTok (pk p)); try discriminate E; reflexivity). specialize (HL K).
  destruct (pLine (tPos (cur q)) =? pLine (tPos (pk q))) eqn:E1, (pLine (tPos (cur p)) =? pLine (tPos (pk p))) eqn:E2; auto; exfalso.
  - apply Z.eqb_eq in E1. apply Z.eqb_neq in E2. apply E2. now apply HL.
  - apply Z.eqb_neq in E1. apply Z.eqb_eq in E2. apply E1. now apply HL.
Qed.

Lemma pnext_simi : forall p q, simi p q -> relRes (fun x y => simi x y /\ cur x = pk p) (pnext X p) (pnext X q).
Proof.
  intros p q H. unfold pnext. pose proof (si_toks _ _ H 1%nat) as H1. cbn [scans] in H1.
  destruct (scan X (lx p)) as [[t l]| | |] eqn:E1, (scan X (lx q)) as [[t' l']| | |] eqn:E2; cbn [rbind relRes] in *; auto.
  split; [|reflexivity]. constructor; cbn [cur pk lx perrors env tasks]; try apply H. intros n. pose proof (si_toks _ _ H (S n)) as HN. cbn [scans] in HN. rewrite E1, E2 in HN. cbn [rbind] in HN.
  destruct (scans X n l) as [[ts m]| | |], (scans X n l') as [[ts' m']| | |]; cbn [rbind relRes fst] in *; auto. inversion HN; subst. assumption.
Qed.

Lemma pnext_s : forall p q, simi p q -> relRes simi (pnext X p) (pnext X q).
Proof. intros p q H. pose proof (pnext_simi _ _ H) as K. destruct (pnext X p), (pnext X q); cbn [relRes] in *; tauto. Qed.

Lemma addTask_simi : forall p q t t', simi p q -> eraseTask t = eraseTask t' -> simi (addTask p t) (addTask q t').
Proof. intros p q t t' H E. constructor; try apply H. unfold addTask. cbn [tasks]. rewrite !map_app. cbn [map]. now rewrite (si_tasks _ _ H), E. Qed.

Lemma addDiag_simi : forall p q d d', simi p q -> eraseD d = eraseD d' -> simi (addDiag p d) (addDiag q d').
Proof. intros p q d d' H E. constructor; try apply H. unfold addDiag. cbn [perrors]. rewrite !map_app. cbn [map]. now rewrite (si_errs _ _ H), E. Qed.

Definition simiFn (f g : entryFn) : Prop := forall prec p q, simi p q -> relRes simiRes (f prec p) (g prec q).
Definition simiPair {A B} (f : A -> B) (a b : A * parser) : Prop := f (fst a) = f (fst b) /\ simi (snd a) (snd b).
Definition simiSum {A B} (f : A -> B) (a b : (A * parser) + (diag * parser)) : Prop :=
  match a, b with
  | inl x, inl y => f (fst x) = f (fst y) /\ simi (snd x) (snd y)
  | inr x, inr y => eraseD (fst x) = eraseD (fst y) /\ simi (snd x) (snd y)
  | _, _ => False
  end.

Ltac same := repeat match goal with H : simi ?p ?q |- _ => progress rewrite ?(si_line _ _ H), ?(si_curr _ _ H), ?(si_peek _ _ H), ?(si_isLit _ _ H), ?(si_peekLit _ _ H) end.
Ltac ret := cbn [relRes]; unfold simiRes, simiPair; cbn [fst snd]; split; [cbn [erase option_map]; same; try reflexivity; try congruence|
  match goal with |- _ /\ _ => split; [cbn [option_map] in *; try congruence; unfold eraseD, err; cbn [dMsg eraseMsg]; same; try reflexivity; try congruence|] | _ => idtac end; try assumption].
Ltac next := eapply rel_bind; [apply pnext_simi; eassumption|let HQ := fresh "HCR" in intros ? ? [? HQ]]; cbv beta; same.
Ltac entry := eapply rel_bind; [match goal with HP : simiFn _ _ |- _ => apply HP; eassumption end|
  let HN := fresh "HN" in let HG := fresh "HG" in let HL := fresh "HL" in intros [[? d] ?] [[? d'] ?] (HN & HG & HL); cbn [fst snd] in HN, HG, HL; destruct d as [d|], d' as [d'|]; try discriminate HG]; cbv beta; same.

Lemma commentLoop_simi : forall f acc acc' p q, simi p q -> map eraseC acc = map eraseC acc' ->
  relRes (simiPair (map eraseC)) (commentLoop X f acc p) (commentLoop X f acc' q).
Proof.
  induction f as [|f IH]; intros acc acc' p q H E; cbn [commentLoop]; same; (destruct (teq (peekTok p) COMMENT); [|split; auto]); [exact I|].
  next. apply IH; auto. rewrite !map_app. cbn [map]. rewrite E. reflexivity.
Qed.

Lemma parseComment_simi : forall f p q, simi p q -> relRes simiRes (parseComment X f p) (parseComment X f q).
Proof.
  intros f p q H. unfold parseComment. eapply rel_bind.
  - apply commentLoop_simi; [exact H|reflexivity].
  - intros [l p1] [l' q1] [E HL]. cbn [fst snd] in *. destruct l as [|c [|c1 l]], l' as [|c' [|c1' l']]; cbn [map] in E; try discriminate E; ret; cbn [map]; congruence.
Qed.

Lemma inner_simi : forall p q, simi p q -> eraseC (parseInnerComment p) = eraseC (parseInnerComment q).
Proof. reflexivity. Qed.

Lemma entryTrailing_simi : forall p q, simi p q -> relRes (simiPair (option_map eraseC)) (entryTrailing X p) (entryTrailing X q).
Proof.
  intros p q H. unfold entryTrailing. same. destruct (_ && _); [|ret]. next. ret.
Qed.

Lemma ruleTrailing_simi : forall p q, simi p q -> relRes (simiPair (option_map eraseC)) (ruleTrailing X p) (ruleTrailing X q).
Proof.
  intros p q H. unfold ruleTrailing. same. destruct (_ && _); [|ret]. next. next. ret.
Qed.

Lemma expectPeek_simi : forall t p q, simi p q -> relRes simi (expectPeek X t p) (expectPeek X t q).
Proof. intros t p q H. unfold expectPeek. same. destruct (teq (peekTok p) t); [now apply pnext_s|exact H]. Qed.

Definition eraseUU (a : option uintLit * option uintLit) := (option_map eraseU (fst a), option_map eraseU (snd a)).

Lemma parseTagHead_simi : forall p q, simi p q -> relRes (simiSum eraseUU) (parseTagHead X p) (parseTagHead X q).
Proof.
  intros p q H. unfold parseTagHead. same. destruct (peekTok p) eqn:EK; try (cbn [relRes simiSum fst snd]; split; auto; fail).
  - next. assert (C : curr x = INT) by (unfold curr; rewrite HCR; exact EK). pose proof (si_uint _ _ H0 C) as N.
    destruct (parseUint (currLit x)), (parseUint (currLit y)); cbn [okNum] in N; try contradiction; cbn [relRes simiSum fst snd]; split; auto.
  - next. assert (C : curr x = FLOAT) by (unfold curr; rewrite HCR; exact EK). pose proof (si_class _ _ H0 C) as N. unfold parseFloatTag. same. unfold tagClass in N.
    destruct (splitDot (currLit x)) as [|a [|b [|? ?]]], (splitDot (currLit y)) as [|a' [|b' [|? ?]]];
      repeat (match goal with |- context [parseUint ?w] => destruct (parseUint w) end); try discriminate N; cbn [relRes simiSum fst snd]; split; auto.
Qed.

Lemma occUpper_simi : forall p q, simi p q -> relRes (simiSum (option_map eraseU)) (occUpper X p) (occUpper X q).
Proof.
  intros p q H. unfold occUpper. same. destruct (teq (peekTok p) INT) eqn:EK; cbn [andb]; [|next; cbn [relRes simiSum fst snd]; split; auto].
  destruct (isLiteral (peekTok p) (peekLit p)); next; [|cbn [relRes simiSum fst snd]; split; auto].
  assert (C : curr x = INT) by (unfold curr; rewrite HCR; unfold peekTok in EK; destruct (tTok (pk p)); try discriminate EK; reflexivity). pose proof (si_uint _ _ H0 C) as N.
  unfold parseUintType, parseUintLiteral. same. destruct (isLiteral (curr x) (currLit x)); cbn [rbind]; [|cbn [relRes simiSum fst snd]; split; auto].
  destruct (parseUint (currLit x)), (parseUint (currLit y)); cbn [okNum] in N; try contradiction; cbn [rbind relRes simiSum fst snd]; split; auto.
Qed.

Definition lowerRel (a b : uintLit + diag) : Prop :=
  match a, b with inl x, inl y => eraseU x = eraseU y | inr x, inr y => eraseD x = eraseD y | _, _ => False end.

Lemma ends_simi : forall {A} (R : A -> A -> Prop) n n' (f g : position -> position -> res A), en n n' -> (forall a b a' b', relRes R (f a b) (g a' b')) ->
  relRes R (s <- node_start n;; e <- node_end n;; f s e) (s <- node_start n';; e <- node_end n';; g s e).
Proof.
  intros A R n n' f g H HF. eapply rel_bind; [apply start_en; exact H|]. intros a a' _. eapply rel_bind; [apply end_en; exact H|]. intros b b' _. apply HF.
Qed.

Lemma sign_en : forall p t v p' t' v', en (NIntegerLiteral p t v) (NIntegerLiteral p' t' v') -> (v <? 0) = (v' <? 0).
Proof. intros p t v p' t' v' E. cbn [erase] in E. injection E as _ E. destruct (v <? 0), (v' <? 0); auto; discriminate. Qed.

Lemma occLower_simi : forall n n' p q, en n n' -> simi p q -> relRes lowerRel (occLower n p) (occLower n' q).
Proof.
  intros n n' p q E H.
  assert (G : relRes lowerRel (s <- node_start n;; e <- node_end n;; Ok (inr (err (MOccType (curr p)) s e)))
    (s <- node_start n';; e <- node_end n';; Ok (inr (err (MOccType (curr q)) s e)))).
  { apply ends_simi; auto. intros. cbn [relRes lowerRel]. unfold eraseD. cbn [err dMsg eraseMsg]. same. reflexivity. }
  destruct n, n'; try discriminate E; try exact G.
  - cbn [occLower relRes lowerRel]. cbn [erase] in E. congruence.
  - pose proof (sign_en _ _ _ _ _ _ E) as S. cbn [occLower]. rewrite <- S. destruct (v <? 0); [|reflexivity].
    apply (ends_simi lowerRel (NIntegerLiteral p0 t v) (NIntegerLiteral p1 t0 v0)); auto.
    intros. cbn [relRes lowerRel]. unfold eraseD. cbn [err dMsg eraseMsg]. same. reflexivity.
Qed.

Lemma parseOccurrence_simi : forall pe pe' n n' p q, simiFn pe pe' -> en n n' -> simi p q ->
  relRes simiRes (parseOccurrence X pe n p) (parseOccurrence X pe' n' q).
Proof.
  intros pe pe' n n' p q HP E H. unfold parseOccurrence. eapply rel_bind; [apply occLower_simi; eauto|].
  intros [u|d] [u'|d'] HU; cbn [lowerRel] in HU; try contradiction.
  - eapply rel_bind; [apply occUpper_simi; eauto|]. intros [[w p1]|[d p1]] [[w' q1]|[d' q1]] HW; cbn [simiSum fst snd] in HW; try contradiction; destruct HW as [HW HL].
    + unfold peCurr. same. entry; ret.
    + ret.
  - ret.
Qed.

Lemma parseLitBound_simi : forall pe pe' b n n' p q, simiFn pe pe' -> en n n' -> simi p q ->
  relRes simiRes (parseLitBound X pe b n p) (parseLitBound X pe' b n' q).
Proof.
  intros pe pe' b n n' p q HP E H. unfold parseLitBound. next. unfold peCurr. same. entry; [ret|].
  destruct n0, n1; try discriminate HN; try (ret; fail); cbn [erase] in HN; destruct b; try (ret; fail).
  - apply ends_simi; [exact HN|]. intros. ret. apply addTask_simi; auto. cbn [eraseTask]. injection HN as HN. now rewrite HN.
  - apply ends_simi; [exact HN|]. intros. ret. apply addTask_simi; auto. cbn [eraseTask]. injection HN as HN. now rewrite HN.
  - apply ends_simi; [exact HN|]. intros. ret.
  - apply ends_simi; [exact HN|]. intros. ret.
Qed.

Lemma parseBound_simi : forall pe pe' n n' p q, simiFn pe pe' -> en n n' -> simi p q ->
  relRes simiRes (parseBound X pe n p) (parseBound X pe' n' q).
Proof.
  intros pe pe' n n' p q HP E H. destruct n, n'; try discriminate E; try (cbn [parseBound]; ret; fail); cbn [parseBound].
  - cbn [erase] in E. unfold parseIdentBound. next. unfold peCurr. same. entry; [ret|]. ret. apply addTask_simi; auto. cbn [eraseTask erase] in *. same. congruence.
  - now apply parseLitBound_simi.
  - now apply parseLitBound_simi.
Qed.

Lemma wrap_simi : forall n n', en n n' -> relRes (fun a b => en a b) (wrapBadNode n) (wrapBadNode n').
Proof. intros n n' E. unfold wrapBadNode. apply ends_simi; auto. intros. cbn [relRes erase]. congruence. Qed.

Lemma fmtD_key : forall v, numberKey (fmtD v) = true.
Proof.
  intros v. destruct (Z.ltb_spec v 0) as [N|N].
  - unfold fmtD. destruct (Z.ltb_spec v 0); [reflexivity|lia].
  - destruct (fmt_numeral v N) as (_ & F & NE). destruct (fmtD v) as [|c w]; [congruence|]. inversion F; subst. cbn [numberKey].
    rewrite (proj2 (Z.leb_le 48 c)), (proj2 (Z.leb_le c 57)) by lia. apply orb_true_r.
Qed.

Lemma runLed_simi : forall pe pe' k n n' p q, simiFn pe pe' -> en n n' -> simi p q -> currLit q = currLit p ->
  relRes simiRes (runLed X pe k n p) (runLed X pe' k n' q).
Proof.
  intros pe pe' k n n' p q HP E H EL. destruct k; cbn [runLed]; try (apply parseOccurrence_simi; auto; fail); try (apply parseBound_simi; auto; fail).
  - unfold parseColon. 
    assert (HK : option_map eraseKey (match n with NIdentifier i => Some i | NIntegerLiteral _ _ v => Some (mkIdent (pos p) (fmtD v)) | _ => None end) =
      option_map eraseKey (match n' with NIdentifier i => Some i | NIntegerLiteral _ _ v => Some (mkIdent (pos q) (fmtD v)) | _ => None end)).
    { destruct n, n'; try discriminate E; try reflexivity; cbn [erase] in E; cbn [option_map]; [unfold stripI in E; injection E as E; unfold eraseKey; now rewrite E|]. unfold eraseKey. cbn [iName]. now rewrite !fmtD_key. }
    destruct (match n with NIdentifier i => Some i | NIntegerLiteral _ _ v => Some (mkIdent (pos p) (fmtD v)) | _ => None end) as [i|],
      (match n' with NIdentifier i => Some i | NIntegerLiteral _ _ v => Some (mkIdent (pos q) (fmtD v)) | _ => None end) as [i'|]; try discriminate HK.
    + cbn [option_map] in HK. next. unfold peCurr. same. entry; [ret|]. eapply rel_bind; [apply entryTrailing_simi; eassumption|]. intros [c r] [c' r'] [HC HR]. cbn [fst snd] in *. ret.
    + rewrite EL. ret.
  - unfold parseTypeChoice. next. unfold peCurr. same. entry; ret.
  - unfold parseComparatorOp. rewrite ?EL, <- (typeOf_en _ _ E). destruct (typeOf n) as [[]|]; try (ret; fail); next; unfold peCurr; same; entry; ret.
  - unfold parseSizeOperator. rewrite ?EL, <- (typeOf_en _ _ E). destruct (typeOf n) as [[]|]; try (ret; fail); next; unfold peCurr; same; entry; ret.
  - unfold parseRegexp. rewrite <- (typeOf_en _ _ E). destruct (typeOf n) as [[]|]; try exact I. same.
    assert (HB : option_map (fun pk : position * token => (z, snd pk)) (match n with NTstrType ps t => Some (ps, t) | _ => None end) =
      option_map (fun pk : position * token => (z, snd pk)) (match n' with NTstrType ps t => Some (ps, t) | _ => None end)).
    { destruct n, n'; try discriminate E; try reflexivity. cbn [erase] in E. injection E as ->. reflexivity. }
    destruct (_ && _); [ret|]. next. unfold peCurr. same. entry; ret.
  - unfold parseBits. next. unfold peCurr. same. entry; [|ret]. eapply rel_bind; [apply wrap_simi; eassumption|]. intros a b HAB. cbv beta in HAB. ret.
  - unfold parseComma. ret.
Qed.

Lemma bracketLoop_simi : forall pe pe' stop keep, simiFn pe pe' -> (forall a b, en a b -> keep a = keep b) -> forall f acc acc' p q, simi p q -> map erase acc = map erase acc' ->
  relRes (fun a b => map erase (fst (fst a)) = map erase (fst (fst b)) /\ option_map eraseD (snd (fst a)) = option_map eraseD (snd (fst b)) /\ simi (snd a) (snd b))
    (bracketLoop X pe stop keep f acc p) (bracketLoop X pe' stop keep f acc' q).
Proof.
  intros pe pe' stop keep HP HK. induction f as [|f IH]; intros acc acc' p q H E; cbn [bracketLoop]; same; (destruct (teq (curr p) stop); [cbn; auto|]); [exact I|].
  unfold peCurr. same. entry; [cbn [relRes fst snd]; auto|]. eapply rel_bind; [apply pnext_s; eassumption|]. intros p2 q2 H2. apply IH; auto.
  rewrite (HK _ _ HN). destruct (keep _); auto. rewrite !map_app. cbn [map]. congruence.
Qed.

Lemma chooseNud_simi : forall p q, simi p q -> chooseNud q = chooseNud p.
Proof. intros p q H. unfold chooseNud. same. reflexivity. Qed.

(** The tokens of the null denotations that look at literals. *)
Lemma nud_tok : forall p k, chooseNud p = Some k ->
  match k with
  | NuIdentifier | NuNamedIdentifier => curr p = IDENT
  | NuBooleanLiteral => curr p = FALSE \/ curr p = TRUE
  | NuIntegerType => curr p = INT
  | NuUintType => curr p = UINT
  | NuFloatType => curr p = FLOAT \/ curr p = FLOAT16 \/ curr p = FLOAT32 \/ curr p = FLOAT64
  | _ => True
  end.
Proof.
  intros p k H. unfold chooseNud in H. destruct (teq (curr p) IDENT) eqn:E.
  - assert (C : curr p = IDENT) by (destruct (curr p); try discriminate E; reflexivity). rewrite C in *. cbn [andb] in H.
    destruct (teq (peekTok p) COLON); injection H as <-; reflexivity.
  - cbn [andb] in H. destruct (curr p); cbn [nudFor] in H; try discriminate H; injection H as <-; tauto.
Qed.

Lemma runNud_simi : forall pe pe' f k p q, simiFn pe pe' -> simi p q -> chooseNud p = Some k -> relRes simiRes (runNud X pe f k p) (runNud X pe' f k q).
Proof.
  intros pe pe' f k p q HP H CN. pose proof (nud_tok _ _ CN) as NT. destruct k; cbn [runNud]; try (apply parseComment_simi; auto; fail);
    try (unfold parsePrefixOccurrence; apply parseOccurrence_simi; auto; fail); try (solve [ret]).
  - assert (EL : currLit q = currLit p) by (apply si_lit; auto; rewrite NT; repeat split; discriminate). unfold parseIdentifier. rewrite EL. ret.
  - assert (EL : currLit q = currLit p) by (apply si_lit; auto; rewrite NT; repeat split; discriminate). unfold parseNamedIdentifier. rewrite EL.
    destruct (currLit p) as [|c w] eqn:E; [exact I|]. ret. destruct (c =? 36); auto. apply addTask_simi; auto.
  - assert (EL : currLit q = currLit p) by (apply si_lit; auto; destruct NT as [-> | ->]; repeat split; discriminate). unfold parseBooleanLiteral. rewrite EL.
    destruct (beq _ _); [ret|]. destruct (beq _ _); ret.
  - assert (EF : match xParseFloat X (currLit p), xParseFloat X (currLit q) with None, None => True | Some _, Some _ => True | _, _ => False end).
    { destruct NT as [NT|NT]; [now apply si_float|]. rewrite (si_lit p q); [destruct (xParseFloat X (currLit p)); exact I|exact H|].
      destruct NT as [-> |[-> | ->]]; repeat split; discriminate. }
    unfold parseFloatType, parseFloatLiteral. same. destruct (isLiteral _ _); [|ret].
    destruct (xParseFloat X (currLit p)), (xParseFloat X (currLit q)); try contradiction; ret.
  - assert (EL : currLit q = currLit p) by (apply si_lit; auto; rewrite NT; repeat split; discriminate).
    unfold parseUintType, parseUintLiteral. rewrite EL. same. destruct (isLiteral _ _); [|ret]. destruct (parseUint _); ret.
  - pose proof (si_int _ _ H NT) as EI. unfold parseIntegerType, parseIntegerLiteral. same. destruct (isLiteral _ _); [|ret].
    destruct (parseInt (currLit p)), (parseInt (currLit q)); try contradiction; [ret|]. ret. rewrite EI. reflexivity.
  - unfold parseMap. next. eapply rel_bind; [apply bracketLoop_simi; eauto using notNil_en|]. intros [[l d] p2] [[l' d'] q2] (E1 & E2 & E3). cbn [fst snd] in *. ret.
  - unfold parseGroup. next. eapply rel_bind; [apply bracketLoop_simi; eauto using entry_en|]. intros [[l d] p2] [[l' d'] q2] (E1 & E2 & E3). cbn [fst snd] in *. ret.
  - unfold parseArray. next. eapply rel_bind; [apply bracketLoop_simi; eauto using entry_en|]. intros [[l d] p2] [[l' d'] q2] (E1 & E2 & E3). cbn [fst snd] in *. ret.
  - unfold parseOptional. next. unfold peCurr. same. entry; ret.
  - unfold parseUnwrap. next. unfold peCurr. same. entry; ret.
  - unfold parseTag. eapply rel_bind; [apply parseTagHead_simi; eassumption|].
    intros [[[a b] p1]|[d p1]] [[[a' b'] q1]|[d' q1]] HT; cbn [simiSum fst snd] in HT; try contradiction; destruct HT as [HT HL].
    + same. unfold eraseUU in HT. cbn [fst snd] in HT. injection HT as HT1 HT2. destruct (teq (peekTok p1) LPAREN); [|ret]. next. next. unfold peCurr. same. entry; [ret|].
      eapply rel_bind; [apply expectPeek_simi; eassumption|]. intros p5 q5 H5. ret.
    + ret.
  - unfold parseEnumeration. next. unfold peCurr. same. entry; ret.
Qed.

Lemma ledLoop_simi : forall pe pe' prec, simiFn pe pe' -> forall f n n' p q, en n n' -> simi p q ->
  relRes simiRes (ledLoop X pe f prec n p) (ledLoop X pe' f prec n' q).
Proof.
  intros pe pe' prec HP. induction f as [|f IH]; intros n n' p q E H; cbn [ledLoop]; same; (destruct (_ && _); [|ret]); (destruct (ledFor (peekTok p)) eqn:EK; [|ret]); [exact I|].
  next. assert (EL : currLit y = currLit x).
  { apply si_lit; auto. unfold curr. rewrite HCR. unfold peekTok in EK. destruct (tTok (pk p)); try discriminate EK; repeat split; discriminate. }
  eapply rel_bind; [apply runLed_simi; eassumption|]. intros [[m d] p2] [[m' d'] q2] (E1 & E2 & E3). cbn [fst snd] in *.
  destruct d, d'; try discriminate E2; [ret|]. apply IH; auto.
Qed.

Lemma parseEntry_simi : forall f, simiFn (parseEntry X f) (parseEntry X f).
Proof.
  induction f as [|f IH]; intros prec p q H; [exact I|]. cbn [parseEntry]. eapply rel_bind.
  - instantiate (1 := simi). unfold skipComments. same. destruct (teq (curr p) COMMENT); [|exact H]. eapply rel_bind; [apply parseComment_simi; exact H|].
    intros [[a b] c] [[a' b'] c'] (_ & _ & HL). cbn [snd] in HL. now apply pnext_s.
  - intros p1 q1 H1. rewrite (chooseNud_simi _ _ H1). destruct (chooseNud p1) eqn:CN; [|unfold errorUnexpectedPrefix; ret].
    eapply rel_bind; [apply runNud_simi; eassumption|]. intros [[m d] p2] [[m' d'] q2] (E1 & E2 & E3). cbn [fst snd] in *.
    destruct d, d'; try discriminate E2; [ret|]. apply ledLoop_simi; auto.
Qed.

Lemma assoc_simi : forall k e e', map eraseDef e = map eraseDef e' -> option_map erase (assoc k e) = option_map erase (assoc k e').
Proof.
  intros k. induction e as [|[w v] e IH]; intros [|[w' v'] e'] E; try discriminate E; auto. cbn [map eraseDef fst snd] in E. injection E as <- HV E.
  cbn [assoc]. destruct (beq w k); [cbn [option_map]; congruence|]. now apply IH.
Qed.

Lemma exists_simi : forall k e e', map eraseDef e = map eraseDef e' -> exists_ e k = exists_ e' k.
Proof. intros k e e' E. apply (assoc_simi k) in E. unfold exists_. destruct (assoc k e), (assoc k e'); try discriminate E; reflexivity. Qed.

Lemma get_simi : forall k e e', map eraseDef e = map eraseDef e' -> en (get e k) (get e' k).
Proof. intros k e e' E. apply (assoc_simi k) in E. unfold get. destruct (assoc k e), (assoc k e'); try discriminate E; [|reflexivity]. now injection E. Qed.

Lemma setEnv_simi : forall p q e e', simi p q -> map eraseDef e = map eraseDef e' -> simi (setEnv p e) (setEnv q e').
Proof. intros p q e e' H E. constructor; try apply H. exact E. Qed.

Lemma registerRule_simi : forall i i' n n' p q, iName i = iName i' -> en n n' -> simi p q -> relRes simi (registerRule i n p) (registerRule i' n' q).
Proof.
  intros i i' n n' p q EI E H. unfold registerRule, add. rewrite <- EI, <- (exists_simi (iName i) _ _ (si_env _ _ H)).
  destruct (exists_ (env p) (iName i)); cbn [env setEnv].
  - eapply rel_bind; [apply start_en, get_simi, H|]. intros a b _. apply addDiag_simi; [apply setEnv_simi; auto; apply H|].
    unfold eraseD, err. cbn [dMsg eraseMsg]. reflexivity.
  - cbn [relRes]. apply setEnv_simi; auto. rewrite !map_app. cbn [map]. unfold eraseDef at 2 4. cbn [fst snd]. rewrite E. f_equal. apply H.
Qed.

Lemma parseRule_simi : forall f p q, simi p q -> relRes simiRes (parseRule X f p) (parseRule X f q).
Proof.
  intros f p q H. unfold parseRule. same. destruct (curr p) eqn:EC; try (unfold errorTokenExpected; ret; fail); [now apply parseComment_simi|].
  assert (EL : currLit q = currLit p) by (apply si_lit; auto; rewrite EC; repeat split; discriminate). rewrite EL.
  next. destruct (curr x); try (ret; fail).
  - next. eapply rel_bind; [apply parseEntry_simi; eassumption|]. intros [[m d] p2] [[m' d'] q2] (E1 & E2 & E3). cbn [fst snd] in *.
    destruct d, d'; try discriminate E2; [ret|]. eapply rel_bind; [apply ruleTrailing_simi; eassumption|]. intros [c r] [c' r'] [HC HR]. cbn [fst snd] in *.
    eapply rel_bind; [apply registerRule_simi; [|eassumption|eassumption]; reflexivity|]. intros p5 q5 H5. ret. unfold stripI. cbn [iName]. congruence.
  - next. eapply rel_bind; [apply parseEntry_simi; eassumption|]. intros [[m d] p2] [[m' d'] q2] (E1 & E2 & E3). cbn [fst snd] in *.
    destruct d, d'; try discriminate E2; [ret|]. eapply rel_bind; [apply ruleTrailing_simi; eassumption|]. intros [c r] [c' r'] [HC HR]. cbn [fst snd] in *. ret. unfold stripI. cbn [iName]. congruence.
  - next. eapply rel_bind; [apply parseEntry_simi; eassumption|]. intros [[m d] p2] [[m' d'] q2] (E1 & E2 & E3). cbn [fst snd] in *.
    destruct d, d'; try discriminate E2; [ret|]. eapply rel_bind; [apply ruleTrailing_simi; eassumption|]. intros [c r] [c' r'] [HC HR]. cbn [fst snd] in *. ret. unfold stripI. cbn [iName]. congruence.
Qed.

Lemma handle_simi : forall p q d d', simi p q -> option_map eraseD d = option_map eraseD d' -> simi (handle p d) (handle q d').
Proof. intros p q d d' H E. destruct d, d'; try discriminate E; auto. apply addDiag_simi; auto. cbn [option_map] in E. congruence. Qed.

Lemma fileLoop_simi : forall rf f acc acc' p q, simi p q -> map erase acc = map erase acc' ->
  relRes (simiPair (map erase)) (fileLoop X rf f acc p) (fileLoop X rf f acc' q).
Proof.
  intros rf. induction f as [|f IH]; intros acc acc' p q H E; cbn [fileLoop]; same; (destruct (teq (curr p) EOF); [split; auto|]); [exact I|].
  eapply rel_bind; [apply parseRule_simi; eassumption|]. intros [[m d] p1] [[m' d'] q1] (E1 & E2 & E3). cbn [fst snd] in *.
  eapply rel_bind; [apply pnext_s, handle_simi; eassumption|]. intros p2 q2 H2. apply IH; auto.
  rewrite (notNil_en _ _ E1). destruct (notNil m'); auto. rewrite !map_app. cbn [map]. congruence.
Qed.

Lemma runTask_simi : forall e e' t t', map eraseDef e = map eraseDef e' -> eraseTask t = eraseTask t' ->
  option_map eraseD (runTask e t) = option_map eraseD (runTask e' t').
Proof.
  intros e e' t t' HE HT. destruct t, t'; try discriminate HT; cbn [eraseTask] in HT; cbn [runTask].
  - injection HT as <-. rewrite (exists_simi _ _ _ HE). destruct (exists_ e' name); reflexivity.
  - injection HT as <- HL HO. destruct to, to0; try discriminate HO; try reflexivity. cbn [erase] in HO. injection HO as HO.
    unfold stripI in HL. rewrite <- HL, <- HO.
    pose proof (get_simi (iName left) _ _ HE) as G1. pose proof (get_simi (iName i) _ _ HE) as G2.
    unfold sameType. rewrite (typeOf_en _ _ G1), (typeOf_en _ _ G2).
    destruct (match typeOf (get e' (iName left)) with Some k => _ | None => _ end); auto.
    cbn [option_map]. unfold eraseD, err. cbn [dMsg eraseMsg]. now rewrite G1, G2.
  - injection HT as <-. rewrite (exists_simi _ _ _ HE), (typeOf_en _ _ (get_simi name _ _ HE)).
    destruct (exists_ e' name); [|reflexivity]. destruct (typeOf (get e' name)) as [[]|]; reflexivity.
  - injection HT as <-. rewrite (exists_simi _ _ _ HE), (typeOf_en _ _ (get_simi name _ _ HE)).
    destruct (exists_ e' name); [|reflexivity]. destruct (typeOf (get e' name)) as [[]|]; reflexivity.
Qed.

Lemma runTasks_simi : forall p q, simi p q -> simi (runTasks p) (runTasks q).
Proof.
  intros p q H. unfold runTasks. pose proof (si_env _ _ H) as HE. pose proof (si_tasks _ _ H) as HT.
  revert HE HT. generalize (env p) (env q) (tasks p) (tasks q). intros e e' ts ts' HE. revert ts' p q H.
  induction ts as [|t ts IH]; intros [|t' ts'] p q H HT; try discriminate HT; auto. cbn [map] in HT. injection HT as HT1 HT2.
  cbn [fold_left]. apply IH; auto. apply handle_simi; auto. now apply runTask_simi.
Qed.

(** Outcomes of a parse, positions apart. *)
Definition simiOut (a b : fileResult * parser) : Prop :=
  option_map erase (fst (fst a)) = option_map erase (fst (fst b)) /\
  option_map (map eraseD) (snd (fst a)) = option_map (map eraseD) (snd (fst b)) /\
  map eraseD (perrors (snd a)) = map eraseD (perrors (snd b)) /\
  map eraseDef (env (snd a)) = map eraseDef (env (snd b)) /\
  map eraseTask (tasks (snd a)) = map eraseTask (tasks (snd b)).

Theorem parseSource_simi : forall fuel s s' e e',
  (forall n, relRes (fun a b => Similar X (fst a) (fst b)) (scans X n (newLexer s)) (scans X n (newLexer s'))) ->
  (forall t l t' l', scans X 2 (newLexer s) = Ok (t, l) -> scans X 2 (newLexer s') = Ok (t', l') -> (errors l = [] <-> errors l' = [])) ->
  map eraseDef e = map eraseDef e' ->
  relRes simiOut (parseSource X fuel s e) (parseSource X fuel s' e').
Proof.
  intros fuel s s' e e' HS HE HD. unfold parseSource. rewrite !newParser_toks. pose proof (HS 2%nat) as H2.
  destruct (scans X 2 (newLexer s)) as [[ts l]| | |] eqn:E1, (scans X 2 (newLexer s')) as [[ts' l']| | |] eqn:E2; cbn [relRes] in H2; try contradiction; cbn [rbind]; try exact I.
  pose proof (scans_len X _ _ _ _ E1) as L1. pose proof (scans_len X _ _ _ _ E2) as L2.
  destruct ts as [|t [|u [|? ?]]], ts' as [|t' [|u' [|? ?]]]; try discriminate L1; try discriminate L2. cbn [rbind].
  assert (HP : simi (mkParser l t u [] e []) (mkParser l' t' u' [] e' [])).
  { constructor; auto. intros n. cbn [cur pk lx]. specialize (HS (2 + n)%nat). rewrite !scans_app, E1, E2 in HS. cbn [rbind] in HS.
    destruct (scans X n l) as [[us m]| | |], (scans X n l') as [[us' m']| | |]; cbn [rbind relRes] in *; auto. }
  specialize (HE _ _ _ _ eq_refl eq_refl). unfold parseFile. cbn [lx]. destruct (errors l), (errors l').
  - eapply rel_bind; [apply fileLoop_simi; [eassumption|reflexivity]|]. intros [r p] [r' q] [ER HL]. cbn [fst snd] in *.
    pose proof (runTasks_simi _ _ HL) as HT. unfold simiOut. cbn [relRes fst snd option_map erase]. rewrite ER. repeat split; try apply HT.
    pose proof (si_errs _ _ HT) as HQ. unfold collect. destruct (perrors (runTasks p)), (perrors (runTasks q)); try discriminate HQ; auto. cbn [option_map]. now rewrite HQ.
  - destruct HE as [HE _]. specialize (HE eq_refl). discriminate.
  - destruct HE as [_ HE]. specialize (HE eq_refl). discriminate.
  - repeat split; try apply HP.
Qed.
End Lits.
