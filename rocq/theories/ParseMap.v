(** Moving tokens within their lines, and changing the texts of comments, does the same to
    everything the parser makes and changes nothing else. Made after [ParseMove] and
    [ParseNotes]; used with the moves of C111 and C112. *)
From Coq Require Import String.
From Verif Require Import Base Utf8 Token Strconv Ext Lexer Ast Env Diag Parser Doc ParseTwin ParseLayout ParseFacts.
Open Scope string_scope.
Open Scope list_scope.
Open Scope Z_scope.

(** ** Specification *)

Section Map.
Variable X : Ext.
(** Where positions go, and what becomes of the text of a comment. *)
Variable mv : position -> position.
Variable cm : bytes -> bytes.
(** Diagnostics the second parser has already given. *)
Variable pre : list diag.
Hypothesis mv_line : forall p, pLine (mv p) = pLine p.
Hypothesis mv_col : forall p, pColumn (mv p) = pColumn (mv (mkPos [] 0 (pLine p) (pColumn p))).
Hypothesis mv_to : forall p k, posTo (mv p) k = mv (posTo p k).
Hypothesis mv_zero : mv zeroPos = zeroPos.
Hypothesis mv_none : mv noPos = noPos.

Definition mvR (r : positionRange) : positionRange := mkRange (mv (rStart r)) (mv (rEnd r)).
Definition mvI (i : ident) : ident := mkIdent (mv (iPos i)) (iName i).
Definition mvU (u : uintLit) : uintLit := mkUint (mv (uPos u)) (uTok u) (uVal u).
Definition mvC (c : comment) : comment := mkComment (mv (cPos c)) (cm (cText c)).
(** For nodes that are values; these are not comments, see [moveTop]. *)
Definition mvC0 (c : comment) : comment := mkComment (mv (cPos c)) (cText c).

Fixpoint move (n : node) : node :=
  match n with
  | NNil => NNil
  | NTypedNil k => NTypedNil k
  | NIdentifier i => NIdentifier (mvI i)
  | NComment c => NComment (mvC0 c)
  | NCommentGroup l => NCommentGroup (map mvC0 l)
  | NBooleanType p t => NBooleanType (mv p) t
  | NBooleanLiteral r v => NBooleanLiteral (mvR r) v
  | NTstrType p t => NTstrType (mv p) t
  | NTextLiteral p t s => NTextLiteral (mv p) t s
  | NFloatType p t k => NFloatType (mv p) t k
  | NFloatLiteral r t v => NFloatLiteral (mvR r) t v
  | NUintType r t => NUintType (mvR r) t
  | NUintLiteral u => NUintLiteral (mvU u)
  | NIntegerType p t => NIntegerType (mv p) t
  | NNegativeIntegerType p t => NNegativeIntegerType (mv p) t
  | NIntegerLiteral p t v => NIntegerLiteral (mv p) t v
  | NBstrType p t => NBstrType (mv p) t
  | NBytesType p t => NBytesType (mv p) t
  | NNullType p t => NNullType (mv p) t
  | NEntry p i v c => NEntry (mv p) (mvI i) (move v) (option_map mvC c)
  | NTypeChoice p t x y => NTypeChoice (mv p) t (move x) (move y)
  | NGroupChoice p t x y => NGroupChoice (mv p) t (move x) (move y)
  | NUnwrap p t i => NUnwrap (mv p) t (move i)
  | NTag p t x y i => NTag (mv p) t (option_map mvU x) (option_map mvU y) (move i)
  | NEnumeration p t v => NEnumeration (mv p) t (move v)
  | NOptional p t i => NOptional (mv p) t (move i)
  | NNMOccurrence p t x y i => NNMOccurrence (mv p) t (option_map mvU x) (option_map mvU y) (move i)
  | NSizeOp p t x y => NSizeOp (mv p) t (move x) (move y)
  | NRegexp p t x r => NRegexp (mv p) t (option_map (fun pk => (mv (fst pk), snd pk)) x) (move r)
  | NBits p t x y => NBits (mv p) t (move x) (move y)
  | NComparator p t o x y => NComparator (mv p) t o (move x) (move y)
  | NRange p t x y => NRange (mv p) t (move x) (move y)
  | NGroup p l => NGroup (mv p) (map move l)
  | NMap p t l => NMap (mv p) t (map move l)
  | NArray p l => NArray (mv p) (map move l)
  | NBadNode p t x e => NBadNode (mv p) t (move x) (mv e)
  | NRule p i v c => NRule (mv p) (mvI i) (move v) (option_map mvC c)
  | NCDDL p l => NCDDL (mv p) (map move l)
  end.

(** What stands where a rule does. *)
Definition moveTop (n : node) : node :=
  match n with
  | NComment c => NComment (mvC c)
  | NCommentGroup l => NCommentGroup (map mvC l)
  | n => move n
  end.

Definition moveFile (n : node) : node :=
  match n with NCDDL p l => NCDDL (mv p) (map moveTop l) | n => move n end.

Definition mvCol (l c : Z) : Z := pColumn (mv (mkPos [] 0 l c)).
Definition mvMsg (m : msg) : msg :=
  match m with
  | MExpectedAt t l c => MExpectedAt t l (mvCol l c)
  | MUnexpectedAt t l c => MUnexpectedAt t l (mvCol l c)
  | MExisting w l c => MExisting w l (mvCol l c)
  | MRangeTypes t l r x y => MRangeTypes t l r (move x) (move y)
  | _ => m
  end.
Definition mvD (d : diag) : diag := mkDiag (mv (dStart d)) (mv (dEnd d)) (mvMsg (dMsg d)).
Definition mvDef (x : bytes * node) : bytes * node := (fst x, move (snd x)).
Definition mvTok (t : tokInfo) : tokInfo := mkTok (tTok t) (mv (tPos t)) (if teq (tTok t) COMMENT then cm (tLit t) else tLit t).

Definition mvTask (t : task) : task :=
  match t with
  | TExists w p => TExists w (mv p)
  | TIdentBound k l to => TIdentBound k (mvI l) (move to)
  | TIntBound w s e => TIntBound w (mv s) (mv e)
  | TFloatBound w s e => TFloatBound w (mv s) (mv e)
  end.

(** ** Positions *)

Lemma line_mv : forall p q, isSameLineTokens (mv p) (mv q) = isSameLineTokens p q.
Proof. intros p q. unfold isSameLineTokens. now rewrite !mv_line. Qed.

Lemma col_mv : forall p, pColumn (mv p) = mvCol (pLine p) (pColumn p).
Proof. exact mv_col. Qed.

Lemma expected_mv : forall p t, errorTokenExpected (mv p) t = mvD (errorTokenExpected p t).
Proof. intros p t. unfold errorTokenExpected, err, mvD. cbn [dMsg dStart dEnd mvMsg]. now rewrite mv_line, col_mv. Qed.

Lemma unexpected_mv : forall p t, errorUnexpectedPrefix (mv p) t = mvD (errorUnexpectedPrefix p t).
Proof. intros p t. unfold errorUnexpectedPrefix, err, mvD. cbn [dMsg dStart dEnd mvMsg]. now rewrite mv_line, col_mv. Qed.

Lemma posTo_mv : forall p k, posTo (mv p) k = mv (posTo p k).
Proof. exact mv_to. Qed.

Lemma typeOf_mv : forall n, typeOf (move n) = typeOf n.
Proof. destruct n; reflexivity. Qed.

Lemma entry_mv : forall n, isGroupEntry (move n) = isGroupEntry n.
Proof. intros n. unfold isGroupEntry. now rewrite typeOf_mv. Qed.

Lemma notNil_mv : forall n, notNil (move n) = notNil n.
Proof. destruct n; reflexivity. Qed.

Definition rmap {A B} (f : A -> B) (r : res A) : res B := match r with Ok x => Ok (f x) | Panic => Panic | Hang => Hang | NoFuel => NoFuel end.

Lemma start_mv : forall n, node_start (move n) = rmap mv (node_start n).
Proof.
  induction n; cbn [node_start move]; auto.
  - destruct l; cbn [map rmap]; [now rewrite mv_none|reflexivity].
  - destruct n; reflexivity.
  - destruct base as [[? ?]|]; reflexivity.
Qed.

Lemma last_mv : forall l c, last (map mvC0 l) (mvC0 c) = mvC0 (last l c).
Proof. induction l as [|x l IH]; intros c; [reflexivity|]. cbn [map last]. destruct l; [reflexivity|]. apply IH. Qed.

Lemma end_mv : forall n, node_end (move n) = rmap mv (node_end n).
Proof.
  fix IH 1. assert (G : forall l,
    (fix le (l : list node) : res position := match l with [] => Ok noPos | [x] => node_end x | _ :: r => le r end) (map move l) =
    rmap mv ((fix le (l : list node) : res position := match l with [] => Ok noPos | [x] => node_end x | _ :: r => le r end) l)).
  { fix G 1. intros l. destruct l as [|x l]; [cbn [map rmap]; now rewrite mv_none|]. pose proof (G l) as Gl. destruct l as [|y l]; [apply IH|exact Gl]. }
  intros n. destruct n; cbn [node_end move rmap]; rewrite <- ?posTo_mv; try reflexivity; try apply IH; try apply G.
  - unfold comment_end. now rewrite <- posTo_mv.
  - destruct l as [|c l]; [cbn [map rmap]; now rewrite mv_none|]. cbn [map rmap]. unfold comment_end. now rewrite last_mv, <- posTo_mv.
  - unfold uint_end. now rewrite <- posTo_mv.
  - rewrite IH. destruct (node_end n); cbn [rmap rbind]; auto. now rewrite <- posTo_mv.
  - destruct m; cbn [option_map rmap]; auto. unfold uint_end. now rewrite <- posTo_mv.
Qed.

(** ** Parsers *)

Record mov (p q : parser) : Prop := mkMov {
  mv_toks : forall n, relRes (fun x y => fst y = map mvTok (fst x)) (scans X n (lx p)) (scans X n (lx q));
  mv_cur : cur q = mvTok (cur p);
  mv_pk : pk q = mvTok (pk p);
  mv_errs : perrors q = pre ++ map mvD (perrors p);
  mv_env : env q = map mvDef (env p);
  mv_tasks : tasks q = map mvTask (tasks p)
}.

Definition movRes (x y : node * option diag * parser) : Prop :=
  fst (fst y) = move (fst (fst x)) /\ snd (fst y) = option_map mvD (snd (fst x)) /\ mov (snd x) (snd y).

Lemma mv_curr : forall p q, mov p q -> curr q = curr p.
Proof. intros p q H. unfold curr. now rewrite (mv_cur _ _ H). Qed.

Lemma mv_lit : forall p q, mov p q -> curr p <> COMMENT -> currLit q = currLit p.
Proof. intros p q H N. unfold currLit, curr in *. rewrite (mv_cur _ _ H). cbn [mvTok tLit]. now rewrite (proj2 (teq_false _ _) N). Qed.

Lemma mv_isLit : forall p q, mov p q -> isLiteral (curr p) (currLit q) = isLiteral (curr p) (currLit p).
Proof.
  intros p q H. unfold currLit, curr in *. rewrite (mv_cur _ _ H). cbn [mvTok tLit]. destruct (teq (tTok (cur p)) COMMENT) eqn:E; auto.
  apply teq_true in E. now rewrite E.
Qed.

Lemma mv_inner : forall p q, mov p q -> curr p = COMMENT -> currLit q = cm (currLit p).
Proof. intros p q H N. unfold currLit, curr in *. rewrite (mv_cur _ _ H). cbn [mvTok tLit]. now rewrite N. Qed.

Lemma mv_pos : forall p q, mov p q -> pos q = mv (pos p).
Proof. intros p q H. unfold pos. now rewrite (mv_cur _ _ H). Qed.

Lemma mv_peek : forall p q, mov p q -> peekTok q = peekTok p.
Proof. intros p q H. unfold peekTok. now rewrite (mv_pk _ _ H). Qed.

Lemma mv_peekLit : forall p q, mov p q -> isLiteral (peekTok p) (peekLit q) = isLiteral (peekTok p) (peekLit p).
Proof.
  intros p q H. unfold peekLit, peekTok in *. rewrite (mv_pk _ _ H). cbn [mvTok tLit]. destruct (teq (tTok (pk p)) COMMENT) eqn:E; auto.
  apply teq_true in E. now rewrite E.
Qed.

Lemma mv_peekPos : forall p q, mov p q -> peekPos q = mv (peekPos p).
Proof. intros p q H. unfold peekPos. now rewrite (mv_pk _ _ H). Qed.

Lemma pnext_mov : forall p q, mov p q -> relRes mov (pnext X p) (pnext X q).
Proof.
  intros p q H. unfold pnext. pose proof (mv_toks _ _ H 1%nat) as H1. cbn [scans] in H1.
  destruct (scan X (lx p)) as [[t l]| | |] eqn:E1, (scan X (lx q)) as [[t' l']| | |] eqn:E2; cbn [rbind relRes fst map] in *; auto.
  constructor; cbn [cur pk lx perrors env tasks]; try apply H; [|congruence]. intros n. pose proof (mv_toks _ _ H (S n)) as HN. cbn [scans] in HN. rewrite E1, E2 in HN. cbn [rbind] in HN.
  destruct (scans X n l) as [[ts m]| | |], (scans X n l') as [[ts' m']| | |]; cbn [rbind relRes fst map] in *; auto. congruence.
Qed.

Lemma pnext_c : forall p q, mov p q -> relRes (fun x y => mov x y /\ cur x = pk p) (pnext X p) (pnext X q).
Proof.
  intros p q H. pose proof (pnext_mov _ _ H) as K. unfold pnext in *.
  destruct (scan X (lx p)) as [[t l]| | |], (scan X (lx q)) as [[t' l']| | |]; cbn [rbind relRes] in *; auto.
Qed.

Lemma addTask_mov : forall p q t, mov p q -> mov (addTask p t) (addTask q (mvTask t)).
Proof. intros p q t H. constructor; try apply H. unfold addTask. cbn [tasks]. rewrite map_app. cbn [map]. now rewrite (mv_tasks _ _ H). Qed.

Lemma addDiag_mov : forall p q d, mov p q -> mov (addDiag p d) (addDiag q (mvD d)).
Proof. intros p q d H. constructor; try apply H. unfold addDiag. cbn [perrors]. rewrite map_app, app_assoc. cbn [map]. now rewrite (mv_errs _ _ H). Qed.

Definition movFn (f g : entryFn) : Prop := forall prec p q, mov p q -> relRes movRes (f prec p) (g prec q).
Definition movPair {A} (f : A -> A) (x y : A * parser) : Prop := fst y = f (fst x) /\ mov (snd x) (snd y).
Definition movSum {A} (f : A -> A) (x y : (A * parser) + (diag * parser)) : Prop :=
  match x, y with
  | inl x, inl y => fst y = f (fst x) /\ mov (snd x) (snd y)
  | inr x, inr y => fst y = mvD (fst x) /\ mov (snd x) (snd y)
  | _, _ => False
  end.

Ltac same := repeat match goal with H : mov ?p ?q |- _ =>
  progress rewrite ?(mv_curr _ _ H), ?(mv_pos _ _ H), ?(mv_peek _ _ H), ?(mv_isLit _ _ H), ?(mv_peekLit _ _ H), ?(mv_peekPos _ _ H) end; rewrite ?line_mv.
Definition mvUU (x : option uintLit * option uintLit) := (option_map mvU (fst x), option_map mvU (snd x)).

Ltac here := same; rewrite ?posTo_mv, ?expected_mv, ?unexpected_mv; try reflexivity; try congruence;
  cbn [mvD mvMsg move mvU mvI moveTop option_map err dMsg dStart dEnd map]; unfold mvD, err, mvUU, mvU, mvR; cbn [dMsg dStart dEnd mvMsg option_map fst snd uPos uTok uVal rStart rEnd]; rewrite ?mv_line, ?col_mv, ?mv_zero; try reflexivity; try congruence.
Definition topRes (x y : node * option diag * parser) : Prop :=
  fst (fst y) = moveTop (fst (fst x)) /\ snd (fst y) = option_map mvD (snd (fst x)) /\ mov (snd x) (snd y).

Ltac ret := cbn [relRes]; unfold movRes, topRes, movPair, movSum; cbn [fst snd]; repeat match goal with |- _ /\ _ => split end; try assumption; try (here; fail).
Ltac next := eapply rel_bind; [apply pnext_c; eassumption|let HQ := fresh "HCR" in intros ? ? [? HQ]]; cbv beta; same.
Ltac entry := eapply rel_bind; [match goal with HP : movFn _ _ |- _ => apply HP; eassumption end|
  let HN := fresh "HN" in let HG := fresh "HG" in let HL := fresh "HL" in intros [[? d] ?] [[? d'] ?] (HN & HG & HL); cbn [fst snd] in HN, HG, HL; subst; destruct d as [d|]; cbn [option_map]]; cbv beta; same.

Lemma inner_mov : forall p q, mov p q -> curr p = COMMENT -> parseInnerComment q = mvC (parseInnerComment p).
Proof. intros p q H E. unfold mvC, parseInnerComment. cbn [cText cPos]. same. now rewrite (mv_inner _ _ H E). Qed.

Lemma commentLoop_mov : forall f acc p q, mov p q -> relRes (movPair (map mvC)) (commentLoop X f acc p) (commentLoop X f (map mvC acc) q).
Proof.
  induction f as [|f IH]; intros acc p q H; cbn [commentLoop]; same; (destruct (teq (peekTok p) COMMENT) eqn:E; [|ret]); [exact I|].
  apply teq_true in E. next. replace (map mvC acc ++ [parseInnerComment y]) with (map mvC (acc ++ [parseInnerComment x])); [now apply IH|].
  rewrite map_app. cbn [map]. rewrite (inner_mov x y); auto. unfold curr. now rewrite HCR.
Qed.

Lemma parseComment_mov : forall f p q, mov p q -> curr p = COMMENT -> relRes topRes (parseComment X f p) (parseComment X f q).
Proof.
  intros f p q H E. unfold parseComment. rewrite (inner_mov _ _ H E). change [mvC (parseInnerComment p)] with (map mvC [parseInnerComment p]). eapply rel_bind.
  - apply commentLoop_mov; exact H.
  - intros [l p1] [l' q1] [E1 HL]. cbn [fst snd] in *. subst l'. destruct l as [|c [|c1 l]]; cbn [map]; ret.
Qed.

Lemma entryTrailing_mov : forall p q, mov p q -> relRes (movPair (option_map mvC)) (entryTrailing X p) (entryTrailing X q).
Proof.
  intros p q H. unfold entryTrailing. same. destruct (_ && _) eqn:E; [|ret]. apply andb_prop in E as [E _]. apply teq_true in E.
  next. ret. cbn [option_map]. f_equal. apply inner_mov; auto. unfold curr. now rewrite HCR.
Qed.

Lemma ruleTrailing_mov : forall p q, mov p q -> relRes (movPair (option_map mvC)) (ruleTrailing X p) (ruleTrailing X q).
Proof.
  intros p q H. unfold ruleTrailing. same. destruct (_ && _) eqn:E; [|ret]. apply andb_prop in E as [E _]. apply teq_true in E.
  next. next. ret. cbn [option_map]. f_equal. apply inner_mov; auto. unfold curr. now rewrite HCR.
Qed.

Lemma expectPeek_mov : forall t p q, mov p q -> relRes mov (expectPeek X t p) (expectPeek X t q).
Proof. intros t p q H. unfold expectPeek. same. destruct (teq (peekTok p) t); [now apply pnext_mov|exact H]. Qed.

Lemma parseTagHead_mov : forall p q, mov p q -> relRes (movSum mvUU) (parseTagHead X p) (parseTagHead X q).
Proof.
  intros p q H. unfold parseTagHead. same. destruct (peekTok p) eqn:EK; try (ret; fail).
  - next. assert (EL : currLit y = currLit x) by (apply mv_lit; auto; unfold curr; rewrite HCR; unfold peekTok in EK; rewrite EK; discriminate). rewrite EL. destruct (parseUint (currLit x)); ret.
  - next. unfold parseFloatTag. same. assert (EL : currLit y = currLit x) by (apply mv_lit; auto; unfold curr; rewrite HCR; unfold peekTok in EK; rewrite EK; discriminate). rewrite EL. destruct (splitDot (currLit x)) as [|u [|v [|? ?]]]; try (ret; fail).
    destruct (parseUint u); [ret|]. destruct (parseUint v); ret.
Qed.

Lemma occUpper_mov : forall p q, mov p q -> relRes (movSum (option_map mvU)) (occUpper X p) (occUpper X q).
Proof.
  intros p q H. unfold occUpper. same. destruct (_ && _) eqn:EK; next; [|ret]. apply andb_prop in EK as [EK _]. apply teq_true in EK.
  assert (EL : currLit y = currLit x) by (apply mv_lit; auto; unfold curr; rewrite HCR; unfold peekTok in EK; rewrite EK; discriminate).
  unfold parseUintType, parseUintLiteral. same. rewrite EL. destruct (isLiteral (curr x) (currLit x)); cbn [rbind]; [|ret].
  destruct (parseUint (currLit x)); cbn [rbind]; ret.
Qed.

Definition lowerMov (x y : uintLit + diag) : Prop :=
  match x, y with inl x, inl y => y = mvU x | inr x, inr y => y = mvD x | _, _ => False end.

Lemma ends_mov : forall {A} (R : A -> A -> Prop) n (f g : position -> position -> res A), (forall s e, relRes R (f s e) (g (mv s) (mv e))) ->
  relRes R (s <- node_start n;; e <- node_end n;; f s e) (s <- node_start (move n);; e <- node_end (move n);; g s e).
Proof.
  intros A R n f g HF. rewrite start_mv, end_mv. destruct (node_start n); cbn [rmap rbind]; try exact I. destruct (node_end n); cbn [rmap rbind]; try exact I. apply HF.
Qed.

Lemma occLower_mov : forall n p q, mov p q -> relRes lowerMov (occLower n p) (occLower (move n) q).
Proof.
  intros n p q H.
  assert (G : relRes lowerMov (s <- node_start n;; e <- node_end n;; Ok (inr (err (MOccType (curr p)) s e)))
    (s <- node_start (move n);; e <- node_end (move n);; Ok (inr (err (MOccType (curr q)) s e)))).
  { apply ends_mov. intros. cbn [relRes lowerMov]. here. }
  destruct n; try exact G.
  - cbn [occLower move relRes lowerMov]. reflexivity.
  - cbn [occLower move]. destruct (v <? 0); [|reflexivity].
    apply (ends_mov lowerMov (NIntegerLiteral p0 t v)). intros. cbn [relRes lowerMov]. here.
Qed.

Lemma parseOccurrence_mov : forall pe pe' n p q, movFn pe pe' -> mov p q ->
  relRes movRes (parseOccurrence X pe n p) (parseOccurrence X pe' (move n) q).
Proof.
  intros pe pe' n p q HP H. unfold parseOccurrence. eapply rel_bind; [apply occLower_mov; eauto|].
  intros [u|d] [u'|d'] HU; cbn [lowerMov] in HU; try contradiction; subst.
  - eapply rel_bind; [apply occUpper_mov; eauto|]. intros [[w p1]|[d p1]] [[w' q1]|[d' q1]] HW; cbn [movSum fst snd] in HW; try contradiction; destruct HW as [-> HL].
    + unfold peCurr. same. entry; ret.
    + ret.
  - ret.
Qed.

Lemma parseLitBound_mov : forall pe pe' k n p q, movFn pe pe' -> mov p q ->
  relRes movRes (parseLitBound X pe k n p) (parseLitBound X pe' k (move n) q).
Proof.
  intros pe pe' k n p q HP H. unfold parseLitBound. next. unfold peCurr. same. entry; [ret|].
  destruct n0; cbn [move]; try (ret; fail); destruct k; try (ret; fail).
  - apply (ends_mov movRes (NIdentifier i)). intros. ret. apply (addTask_mov _ _ (TIntBound (iName i) s e)); auto.
  - apply (ends_mov movRes (NIdentifier i)). intros. ret. apply (addTask_mov _ _ (TFloatBound (iName i) s e)); auto.
  - apply (ends_mov movRes (NFloatLiteral r t bits)). intros. ret.
  - apply (ends_mov movRes (NIntegerLiteral _ _ _)). intros. ret.
Qed.

Lemma parseBound_mov : forall pe pe' n p q, movFn pe pe' -> mov p q ->
  relRes movRes (parseBound X pe n p) (parseBound X pe' (move n) q).
Proof.
  intros pe pe' n p q HP H. destruct n; try (cbn [parseBound move]; ret; fail).
  - cbn [parseBound move]. unfold parseIdentBound. next. unfold peCurr. same. entry; [ret|]. ret. apply (addTask_mov _ _ (TIdentBound _ i _)); auto.
  - now apply (parseLitBound_mov pe pe' _ (NFloatLiteral _ _ _)).
  - now apply (parseLitBound_mov pe pe' _ (NIntegerLiteral _ _ _)).
Qed.

Lemma wrap_mov : forall n, relRes (fun x y => y = move x) (wrapBadNode n) (wrapBadNode (move n)).
Proof. intros n. unfold wrapBadNode. apply ends_mov. intros. reflexivity. Qed.

Lemma runLed_mov : forall pe pe' k n p q, movFn pe pe' -> mov p q -> currLit q = currLit p ->
  relRes movRes (runLed X pe k n p) (runLed X pe' k (move n) q).
Proof.
  intros pe pe' k n p q HP H EL. destruct k; cbn [runLed]; try (apply parseOccurrence_mov; auto; fail); try (apply parseBound_mov; auto; fail).
  - unfold parseColon.
    assert (HK : match move n with NIdentifier i => Some i | NIntegerLiteral _ _ v => Some (mkIdent (pos q) (fmtD v)) | _ => None end =
      option_map mvI (match n with NIdentifier i => Some i | NIntegerLiteral _ _ v => Some (mkIdent (pos p) (fmtD v)) | _ => None end)).
    { destruct n; try reflexivity. cbn [move option_map]. unfold mvI. cbn [iPos iName]. now same. }
    rewrite HK. destruct (match n with NIdentifier i => Some i | NIntegerLiteral _ _ v => Some (mkIdent (pos p) (fmtD v)) | _ => None end) as [i|]; cbn [option_map].
    + next. unfold peCurr. same. entry; [ret|]. eapply rel_bind; [apply entryTrailing_mov; eassumption|]. intros [c r] [c' r'] [HC HR]. cbn [fst snd] in *. subst c'. ret.
    + rewrite EL. ret.
  - unfold parseTypeChoice. next. unfold peCurr. same. entry; ret.
  - unfold parseComparatorOp. rewrite ?EL, typeOf_mv. destruct (typeOf n) as [[]|]; try (ret; fail); next; unfold peCurr; same; entry; ret.
  - unfold parseSizeOperator. rewrite ?EL, typeOf_mv. destruct (typeOf n) as [[]|]; try (ret; fail); next; unfold peCurr; same; entry; ret.
  - unfold parseRegexp. rewrite ?EL, typeOf_mv. destruct (typeOf n) as [[]|]; try exact I. same.
    assert (HB : match move n with NTstrType ps t => Some (ps, t) | _ => None end =
      option_map (fun pk : position * token => (mv (fst pk), snd pk)) (match n with NTstrType ps t => Some (ps, t) | _ => None end)) by (destruct n; reflexivity).
    rewrite HB. destruct (_ && _); [ret|]. next. unfold peCurr. same. entry; ret.
  - unfold parseBits. next. unfold peCurr. same. entry; [|ret]. eapply rel_bind; [apply wrap_mov|]. intros u v ->. ret.
  - unfold parseComma. ret.
Qed.

Lemma bracketLoop_mov : forall pe pe' stop keep, movFn pe pe' -> (forall n, keep (move n) = keep n) -> forall f acc p q, mov p q ->
  relRes (fun x y => fst (fst y) = map move (fst (fst x)) /\ snd (fst y) = option_map mvD (snd (fst x)) /\ mov (snd x) (snd y))
    (bracketLoop X pe stop keep f acc p) (bracketLoop X pe' stop keep f (map move acc) q).
Proof.
  intros pe pe' stop keep HP HK. induction f as [|f IH]; intros acc p q H; cbn [bracketLoop]; same; (destruct (teq (curr p) stop); [cbn; auto|]); [exact I|].
  unfold peCurr. same. entry; [cbn [relRes fst snd]; auto|]. eapply rel_bind; [apply pnext_mov; eassumption|]. intros p2 q2 H2.
  rewrite HK. destruct (keep _); [|now apply IH]. change ([move n]) with (map move [n]). rewrite <- map_app. now apply IH.
Qed.

Lemma chooseNud_mov : forall p q, mov p q -> chooseNud q = chooseNud p.
Proof. intros p q H. unfold chooseNud. same. reflexivity. Qed.

Lemma nud_comment : forall p, curr p <> COMMENT -> chooseNud p <> Some NuComment.
Proof.
  intros p H E. unfold chooseNud in E. destruct (teq (curr p) IDENT && teq (peekTok p) COLON); [discriminate E|]. apply H. destruct (curr p); try discriminate E; reflexivity.
Qed.

Lemma runNud_mov : forall pe pe' f k p q, movFn pe pe' -> mov p q -> curr p <> COMMENT -> k <> NuComment -> relRes movRes (runNud X pe f k p) (runNud X pe' f k q).
Proof.
  intros pe pe' f k p q HP H NC NK. pose proof (mv_lit _ _ H NC) as EL. destruct k; cbn [runNud]; try congruence; try (solve [rewrite ?EL; ret]);
    try (unfold parsePrefixOccurrence; rewrite (mv_pos _ _ H); apply (parseOccurrence_mov pe pe' (NUintLiteral (mkUint (pos p) UINT _))); auto; fail).
  - unfold parseIdentifier. rewrite EL. ret.
  - unfold parseNamedIdentifier. same. rewrite ?EL. destruct (currLit p) as [|c w] eqn:E; [exact I|]. ret.
    destruct (c =? 36); auto. apply (addTask_mov _ _ (TExists (c :: w) (pos p))); auto.
  - unfold parseBooleanLiteral. same. rewrite ?EL. destruct (beq _ _); [ret|]. destruct (beq _ _); ret.
  - unfold parseFloatType, parseFloatLiteral. same. rewrite ?EL. destruct (isLiteral _ _); [|ret]. destruct (xParseFloat _ _); ret.
  - unfold parseUintType, parseUintLiteral. same. rewrite ?EL. destruct (isLiteral _ _); [|ret]. destruct (parseUint _); ret.
  - unfold parseIntegerType, parseIntegerLiteral. same. rewrite ?EL. destruct (isLiteral _ _); [|ret]. destruct (parseInt _); ret.
  - unfold parseMap. next. eapply rel_bind; [apply (bracketLoop_mov pe pe' _ _ HP notNil_mv _ []); eassumption|]. intros [[l d] p2] [[l' d'] q2] (E1 & E2 & E3). cbn [fst snd] in *. subst. ret.
  - unfold parseGroup. next. eapply rel_bind; [apply (bracketLoop_mov pe pe' _ _ HP entry_mv _ []); eassumption|]. intros [[l d] p2] [[l' d'] q2] (E1 & E2 & E3). cbn [fst snd] in *. subst. ret.
  - unfold parseArray. next. eapply rel_bind; [apply (bracketLoop_mov pe pe' _ _ HP entry_mv _ []); eassumption|]. intros [[l d] p2] [[l' d'] q2] (E1 & E2 & E3). cbn [fst snd] in *. subst. ret.
  - unfold parseOptional. next. unfold peCurr. same. entry; ret.
  - unfold parseUnwrap. next. unfold peCurr. same. entry; ret.
  - unfold parseTag. eapply rel_bind; [apply parseTagHead_mov; eassumption|].
    intros [[[u v] p1]|[d p1]] [[[u' v'] q1]|[d' q1]] HT; cbn [movSum fst snd] in HT; try contradiction; destruct HT as [HT HL].
    + same. unfold mvUU in HT. cbn [fst snd] in HT. injection HT as -> ->. destruct (teq (peekTok p1) LPAREN); [|ret]. next. next. unfold peCurr. same. entry; [ret|].
      eapply rel_bind; [apply expectPeek_mov; eassumption|]. intros p5 q5 H5. ret.
    + subst. ret.
  - unfold parseEnumeration. next. unfold peCurr. same. entry; ret.
Qed.

Lemma ledLoop_mov : forall pe pe' prec, movFn pe pe' -> forall f n p q, mov p q ->
  relRes movRes (ledLoop X pe f prec n p) (ledLoop X pe' f prec (move n) q).
Proof.
  intros pe pe' prec HP. induction f as [|f IH]; intros n p q H; cbn [ledLoop]; same; (destruct (_ && _); [|ret]); (destruct (ledFor (peekTok p)) eqn:EK; [|ret]); [exact I|].
  next. assert (EL : currLit y = currLit x).
  { apply mv_lit; auto. unfold curr. rewrite HCR. unfold peekTok in EK. destruct (tTok (pk p)); try discriminate EK; repeat split; discriminate. }
  eapply rel_bind; [apply runLed_mov; eassumption|]. intros [[m d] p2] [[m' d'] q2] (E1 & E2 & E3). cbn [fst snd] in *. subst.
  destruct d; cbn [option_map]; [ret|]. now apply IH.
Qed.

(** After comments comes something else. *)
Lemma comments_end : forall f acc p l q, commentLoop X f acc p = Ok (l, q) -> peekTok q <> COMMENT.
Proof.
  induction f as [|f IH]; intros acc p l q H; cbn [commentLoop] in H; (destruct (teq (peekTok p) COMMENT) eqn:E; [|injection H as <- <-; now apply teq_false]); [discriminate H|].
  destruct (pnext X p); try discriminate H. cbn [rbind] in H. eauto.
Qed.

Lemma skip_mov : forall f p q, mov p q -> relRes (fun x y => mov x y /\ curr x <> COMMENT) (skipComments X f p) (skipComments X f q).
Proof.
  intros f p q H. unfold skipComments. same. destruct (teq (curr p) COMMENT) eqn:E; [|split; [exact H|now apply teq_false]]. apply teq_true in E.
  pose proof (parseComment_mov f p q H E) as K. destruct (parseComment X f p) as [[[a b] c]| | |] eqn:EP, (parseComment X f q) as [[[a' b'] c']| | |]; cbn [relRes] in K; try contradiction; cbn [rbind]; try exact I.
  destruct K as (_ & _ & HL). cbn [snd] in HL. pose proof (pnext_c _ _ HL) as K.
  assert (NC : peekTok c <> COMMENT).
  { unfold parseComment in EP. destruct (commentLoop X f [parseInnerComment p] p) as [[l r]| | |] eqn:EL; try discriminate EP. cbn [rbind] in EP.
    apply comments_end in EL. destruct l as [|? [|? ?]]; injection EP as _ _ <-; exact EL. }
  destruct (pnext X c), (pnext X c'); cbn [relRes] in *; auto. destruct K as [K1 K2]. split; auto. unfold curr. now rewrite K2.
Qed.

Lemma parseEntry_mov : forall f, movFn (parseEntry X f) (parseEntry X f).
Proof.
  induction f as [|f IH]; intros prec p q H; [exact I|]. cbn [parseEntry]. eapply rel_bind.
  - apply skip_mov. exact H.
  - intros p1 q1 [H1 NC]. rewrite (chooseNud_mov _ _ H1). destruct (chooseNud p1) as [k|] eqn:CN; [|ret].
    assert (NK : k <> NuComment) by (intros ->; exact (nud_comment _ NC CN)).
    eapply rel_bind; [apply runNud_mov; eassumption|]. intros [[m d] p2] [[m' d'] q2] (E1 & E2 & E3). cbn [fst snd] in *. subst.
    destruct d; cbn [option_map]; [ret|]. now apply ledLoop_mov.
Qed.

Lemma assoc_mov : forall k e, assoc k (map mvDef e) = option_map move (assoc k e).
Proof. intros k. induction e as [|[w v] e IH]; auto. cbn [map assoc mvDef fst snd]. destruct (beq w k); auto. Qed.

Lemma exists_mov : forall k e, exists_ (map mvDef e) k = exists_ e k.
Proof. intros k e. unfold exists_. rewrite assoc_mov. now destruct (assoc k e). Qed.

Lemma get_mov : forall k e, get (map mvDef e) k = move (get e k).
Proof. intros k e. unfold get. rewrite assoc_mov. now destruct (assoc k e). Qed.

Lemma setEnv_mov : forall p q e, mov p q -> mov (setEnv p e) (setEnv q (map mvDef e)).
Proof. intros p q e H. constructor; try apply H. reflexivity. Qed.

Lemma registerRule_mov : forall i n p q, mov p q -> relRes mov (registerRule i n p) (registerRule (mvI i) (move n) q).
Proof.
  intros i n p q H. unfold registerRule, add. cbn [mvI iName iPos]. rewrite (mv_env _ _ H), exists_mov.
  destruct (exists_ (env p) (iName i)); cbn [env setEnv].
  - rewrite get_mov, start_mv. destruct (node_start (get (env p) (iName i))) as [s| | |]; cbn [rmap rbind]; try exact I. rewrite mv_line, col_mv.
    apply (addDiag_mov _ _ (err (MExisting (iName i) (pLine s) (pColumn s)) (iPos i) (iPos i))). apply setEnv_mov; auto.
  - cbn [relRes]. change [(iName i, move n)] with (map mvDef [(iName i, n)]). rewrite <- map_app. now apply setEnv_mov.
Qed.

Lemma parseRule_mov : forall f p q, mov p q -> relRes topRes (parseRule X f p) (parseRule X f q).
Proof.
  intros f p q H. unfold parseRule. same. destruct (curr p) eqn:EC; try (ret; fail); [now apply parseComment_mov|].
  assert (EL : currLit q = currLit p) by (apply mv_lit; auto; rewrite EC; repeat split; discriminate). rewrite EL. next. destruct (curr x); try (ret; fail).
  - next. eapply rel_bind; [apply parseEntry_mov; eassumption|]. intros [[m d] p2] [[m' d'] q2] (E1 & E2 & E3). cbn [fst snd] in *. subst.
    destruct d; cbn [option_map]; [ret|]. eapply rel_bind; [apply ruleTrailing_mov; eassumption|]. intros [c r] [c' r'] [HC HR]. cbn [fst snd] in *. subst c'.
    eapply rel_bind; [apply (registerRule_mov (mkIdent (pos p) (currLit p))); eassumption|]. intros p5 q5 H5. ret.
  - next. eapply rel_bind; [apply parseEntry_mov; eassumption|]. intros [[m d] p2] [[m' d'] q2] (E1 & E2 & E3). cbn [fst snd] in *. subst.
    destruct d; cbn [option_map]; [ret|]. eapply rel_bind; [apply ruleTrailing_mov; eassumption|]. intros [c r] [c' r'] [HC HR]. cbn [fst snd] in *. subst c'. ret.
  - next. eapply rel_bind; [apply parseEntry_mov; eassumption|]. intros [[m d] p2] [[m' d'] q2] (E1 & E2 & E3). cbn [fst snd] in *. subst.
    destruct d; cbn [option_map]; [ret|]. eapply rel_bind; [apply ruleTrailing_mov; eassumption|]. intros [c r] [c' r'] [HC HR]. cbn [fst snd] in *. subst c'. ret.
Qed.

Lemma handle_mov : forall p q d, mov p q -> mov (handle p d) (handle q (option_map mvD d)).
Proof. intros p q d H. destruct d; auto. now apply addDiag_mov. Qed.

Lemma notNil_top : forall n, notNil (moveTop n) = notNil n.
Proof. destruct n; reflexivity. Qed.

Lemma fileLoop_mov : forall rf f acc p q, mov p q -> relRes (movPair (map moveTop)) (fileLoop X rf f acc p) (fileLoop X rf f (map moveTop acc) q).
Proof.
  intros rf. induction f as [|f IH]; intros acc p q H; cbn [fileLoop]; same; (destruct (teq (curr p) EOF); [ret|]); [exact I|].
  eapply rel_bind; [apply parseRule_mov; eassumption|]. intros [[m d] p1] [[m' d'] q1] (E1 & E2 & E3). cbn [fst snd] in *. subst.
  eapply rel_bind; [apply pnext_mov, handle_mov; eassumption|]. intros p2 q2 H2.
  rewrite notNil_top. destruct (notNil m); [|now apply IH]. change [moveTop m] with (map moveTop [m]). rewrite <- map_app. now apply IH.
Qed.

Lemma runTask_mov : forall e t, runTask (map mvDef e) (mvTask t) = option_map mvD (runTask e t).
Proof.
  intros e t. destruct t; cbn [mvTask runTask].
  - rewrite exists_mov. destruct (exists_ e name); reflexivity.
  - destruct to; cbn [move]; try reflexivity. cbn [mvI iName]. rewrite !get_mov. unfold sameType. rewrite !typeOf_mv.
    destruct (match typeOf (get e (iName left)) with Some k => _ | None => _ end); reflexivity.
  - rewrite exists_mov, get_mov, typeOf_mv. destruct (exists_ e name); [|reflexivity]. destruct (typeOf (get e name)) as [[]|]; reflexivity.
  - rewrite exists_mov, get_mov, typeOf_mv. destruct (exists_ e name); [|reflexivity]. destruct (typeOf (get e name)) as [[]|]; reflexivity.
Qed.

Lemma runTasks_mov : forall p q, mov p q -> mov (runTasks p) (runTasks q).
Proof.
  intros p q H. unfold runTasks. rewrite (mv_env _ _ H), (mv_tasks _ _ H). generalize (env p) (tasks p). intros e ts. revert p q H.
  induction ts as [|t ts IH]; intros p q H; auto. cbn [map fold_left]. apply IH. rewrite runTask_mov. now apply handle_mov.
Qed.

(** Outcomes of a parse, moved. *)
Definition movOut (x y : fileResult * parser) : Prop :=
  fst y = (option_map moveFile (fst (fst x)), option_map (map mvD) (snd (fst x))) /\ env (snd y) = map mvDef (env (snd x)).

Theorem parseSource_mov : pre = [] -> forall fuel s s' e,
  (forall n, relRes (fun x y => fst y = map mvTok (fst x)) (scans X n (newLexer s)) (scans X n (newLexer s'))) ->
  (forall t l t' l', scans X 2 (newLexer s) = Ok (t, l) -> scans X 2 (newLexer s') = Ok (t', l') -> (errors l = [] <-> errors l' = [])) ->
  relRes movOut (parseSource X fuel s e) (parseSource X fuel s' (map mvDef e)).
Proof.
  intros NP fuel s s' e HS HE. unfold parseSource. rewrite !newParser_toks. pose proof (HS 2%nat) as H2.
  destruct (scans X 2 (newLexer s)) as [[ts l]| | |] eqn:E1, (scans X 2 (newLexer s')) as [[ts' l']| | |] eqn:E2; cbn [relRes fst] in H2; try contradiction; cbn [rbind]; try exact I.
  pose proof (scans_len _ _ _ _ _ E1) as L1. subst ts'.
  destruct ts as [|t [|u [|? ?]]]; try discriminate L1. cbn [map rbind].
  assert (HP : mov (mkParser l t u [] e []) (mkParser l' (mvTok t) (mvTok u) [] (map mvDef e) [])).
  { constructor; auto; [|cbn [perrors map]; now rewrite NP]. intros n. cbn [lx]. specialize (HS (2 + n)%nat). rewrite !scans_app, E1, E2 in HS. cbn [rbind] in HS.
    destruct (scans X n l) as [[us m]| | |], (scans X n l') as [[us' m']| | |]; cbn [rbind relRes fst map app] in *; auto. congruence. }
  specialize (HE _ _ _ _ eq_refl eq_refl). unfold parseFile. cbn [lx]. destruct (errors l), (errors l').
  - eapply rel_bind; [apply (fileLoop_mov _ _ []); eassumption|]. intros [r p] [r' q] [ER HL]. cbn [fst snd] in *. subst r'.
    pose proof (runTasks_mov _ _ HL) as HT. unfold movOut. cbn [relRes fst snd option_map moveFile]. split; [|apply HT].
    rewrite (mv_errs _ _ HT), NP, mv_zero. unfold collect. destruct (perrors (runTasks p)); reflexivity.
  - destruct HE as [HE _]. specialize (HE eq_refl). discriminate.
  - destruct HE as [_ HE]. specialize (HE eq_refl). discriminate.
  - split; [reflexivity|apply HP].
Qed.
End Map.
