(** The parser looks at the letters of a name only to tell equal names from different ones and
    to see whether a name begins with a dollar sign: two sources whose tokens differ in
    their names, one name for the other, are parsed alike. *)
From Coq Require Import String.
From Verif Require Import Base Utf8 Token Strconv Ext Lexer LexSpec LexSpec2 LexWords StrconvProofs Ast Env Diag Parser Doc ParseTwin ParseFacts ParseLayout.
Open Scope string_scope.
Open Scope list_scope.
Open Scope Z_scope.

(** ** Specification *)

(** Other names for the names of a source: different names for different ones, a dollar sign
    in front of those that had one. Strings that cannot be names stay. *)
Record Naming (f : bytes -> bytes) : Prop := mkNaming {
  nm_inj : forall v w, f v = f w -> v = w;
  nm_dollar : forall w, hd 0 (f w) = 36 <-> hd 0 w = 36;
  nm_other : forall w, ~ identStart (hd 0 w) -> f w = w
}.

Definition renI (f : bytes -> bytes) (i : ident) : ident := mkIdent (iPos i) (f (iName i)).

(** The tree with other names. *)
Fixpoint ren (f : bytes -> bytes) (n : node) : node :=
  match n with
  | NIdentifier i => NIdentifier (renI f i)
  | NEntry p i v c => NEntry p (renI f i) (ren f v) c
  | NTypeChoice p t a b => NTypeChoice p t (ren f a) (ren f b)
  | NGroupChoice p t a b => NGroupChoice p t (ren f a) (ren f b)
  | NUnwrap p t i => NUnwrap p t (ren f i)
  | NTag p t a b i => NTag p t a b (ren f i)
  | NEnumeration p t v => NEnumeration p t (ren f v)
  | NOptional p t i => NOptional p t (ren f i)
  | NNMOccurrence p t a b i => NNMOccurrence p t a b (ren f i)
  | NSizeOp p t a b => NSizeOp p t (ren f a) (ren f b)
  | NRegexp p t b r => NRegexp p t b (ren f r)
  | NBits p t a b => NBits p t (ren f a) (ren f b)
  | NComparator p t o a b => NComparator p t o (ren f a) (ren f b)
  | NRange p t a b => NRange p t (ren f a) (ren f b)
  | NGroup p l => NGroup p (map (ren f) l)
  | NMap p t l => NMap p t (map (ren f) l)
  | NArray p l => NArray p (map (ren f) l)
  | NBadNode p t b q => NBadNode p t (ren f b) q
  | NRule p i v c => NRule p (renI f i) (ren f v) c
  | NCDDL p l => NCDDL p (map (ren f) l)
  | _ => n
  end.

(** The diagnostic, definition and task with other names. *)
Definition renMsg (f : bytes -> bytes) (m : msg) : msg :=
  match m with
  | MExpectedAssign w => MExpectedAssign (f w)
  | MExisting w l c => MExisting (f w) l c
  | MNotExist w => MNotExist (f w)
  | MRangeTypes t l r a b => MRangeTypes t (f l) (f r) (ren f a) (ren f b)
  | _ => m
  end.
Definition renDiag (f : bytes -> bytes) (d : diag) : diag := mkDiag (dStart d) (dEnd d) (renMsg f (dMsg d)).
Definition renDef (f : bytes -> bytes) (b : bytes * node) : bytes * node := (f (fst b), ren f (snd b)).
Definition renTask (f : bytes -> bytes) (t : task) : task :=
  match t with
  | TExists w p => TExists (f w) p
  | TIdentBound k l to => TIdentBound k (renI f l) (ren f to)
  | TIntBound w a b => TIntBound (f w) a b
  | TFloatBound w a b => TFloatBound (f w) a b
  end.

(** The same token, but for the name. *)
Definition renTok (f : bytes -> bytes) (t u : tokInfo) : Prop :=
  tTok t = tTok u /\ (if teq (tTok t) IDENT then f (tLit t) else tLit t) = tLit u.

Inductive Renamed (f : bytes -> bytes) : list tokInfo -> list tokInfo -> Prop :=
| rd_nil : Renamed f [] []
| rd_one t t' : renTok f t t' -> Renamed f [t] [t']
| rd_more t u ts t' u' ts' : renTok f t t' ->
    (tTok u = COMMENT -> (pLine (tPos t) = pLine (tPos u) <-> pLine (tPos t') = pLine (tPos u'))) ->
    Renamed f (u :: ts) (u' :: ts') -> Renamed f (t :: u :: ts) (t' :: u' :: ts').

(** ** Trees *)

Section Rename.
Variable rho : bytes -> bytes.
Hypothesis NM : Naming rho.

Notation sn a b := (strip (ren rho a) = strip b).
Notation rbare d := (bare (renDiag rho d)).
Notation rdef b := (bareDef (renDef rho b)).
Notation rtask t := (bareTask (renTask rho t)).

Lemma typeOf_rn : forall a b, sn a b -> typeOf a = typeOf b.
Proof.
  assert (G : forall n, typeOf (strip n) = typeOf n) by (destruct n; reflexivity).
  assert (G1 : forall n, typeOf (ren rho n) = typeOf n) by (destruct n; reflexivity).
  intros a b H. rewrite <- (G1 a), <- (G (ren rho a)), <- (G b). now rewrite H.
Qed.

Lemma entry_rn : forall a b, sn a b -> isGroupEntry a = isGroupEntry b.
Proof. intros a b H. unfold isGroupEntry. now rewrite (typeOf_rn _ _ H). Qed.

Lemma notNil_rn : forall a b, sn a b -> notNil a = notNil b.
Proof. intros a b H. destruct a, b; try discriminate H; reflexivity. Qed.

Lemma start_ren : forall n, relRes any (node_start n) (node_start (ren rho n)).
Proof.
  induction n; cbn [node_start ren]; auto; try exact I.
  - destruct l; exact I.
  - destruct n; exact I.
  - destruct base as [[? ?]|]; exact I.
Qed.

Lemma end_ren : forall n, relRes any (node_end n) (node_end (ren rho n)).
Proof.
  fix IH 1. assert (G : forall l, relRes any
    ((fix le (l : list node) : res position := match l with [] => Ok noPos | [x] => node_end x | _ :: r => le r end) l)
    ((fix le (l : list node) : res position := match l with [] => Ok noPos | [x] => node_end x | _ :: r => le r end) (map (ren rho) l))).
  { fix G 1. intros l. destruct l as [|x l]; [exact I|]. pose proof (G l) as Gl. destruct l as [|y l]; [apply IH|exact Gl]. }
  intros n. destruct n; cbn [node_end ren]; try exact I; try apply IH; try apply G.
  - destruct l; exact I.
  - specialize (IH n). destruct (node_end n), (node_end (ren rho n)); cbn in *; auto.
  - destruct m; exact I.
Qed.

Lemma any_trans : forall {A} (a b c : res A), relRes any a b -> relRes any b c -> relRes any a c.
Proof. intros A a b c H1 H2. destruct a, b, c; cbn in *; auto; contradiction. Qed.

Lemma start_rn : forall a b, sn a b -> relRes any (node_start a) (node_start b).
Proof. intros a b H. eapply rel_any; [eapply any_trans; [apply start_ren|apply start_strip]|apply start_strip|now rewrite H]. Qed.

Lemma end_rn : forall a b, sn a b -> relRes any (node_end a) (node_end b).
Proof. intros a b H. eapply rel_any; [eapply any_trans; [apply end_ren|apply end_strip]|apply end_strip|now rewrite H]. Qed.

(** ** Parsers *)

Variable X : Ext.

Definition rs (n : node) : node := strip (ren rho n).
Definition rb (d : diag) : diag := bare (renDiag rho d).
Definition rd (b : bytes * node) : bytes * node := bareDef (renDef rho b).
Definition rt (t : task) : task := bareTask (renTask rho t).

Record akin (p q : parser) : Prop := mkAkin {
  ak_toks : forall n, relRes (fun a b => Renamed rho (cur p :: pk p :: fst a) (cur q :: pk q :: fst b)) (scans X n (lx p)) (scans X n (lx q));
  ak_errs : map rb (perrors p) = map bare (perrors q);
  ak_env : map rd (env p) = map bareDef (env q);
  ak_tasks : map rt (tasks p) = map bareTask (tasks q)
}.

Definition akinRes (a b : node * option diag * parser) : Prop :=
  sn (fst (fst a)) (fst (fst b)) /\ option_map rb (snd (fst a)) = option_map bare (snd (fst b)) /\ akin (snd a) (snd b).

Lemma ak_now : forall p q, akin p q -> Renamed rho [cur p; pk p] [cur q; pk q].
Proof. intros p q H. exact (ak_toks _ _ H 0%nat). Qed.

Lemma ak_curr : forall p q, akin p q -> curr q = curr p.
Proof. intros p q H. apply ak_now in H. inversion H as [| |? ? ? ? ? ? [E1 E2]]; subst. now symmetry. Qed.

Lemma ak_name : forall p q, akin p q -> curr p = IDENT -> currLit q = rho (currLit p).
Proof.
  intros p q H E. apply ak_now in H. inversion H as [| |? ? ? ? ? ? [E1 E2]]; subst. unfold curr in E. rewrite E in E2. now symmetry.
Qed.

Lemma ak_lit : forall p q, akin p q -> curr p <> IDENT -> currLit q = currLit p.
Proof.
  intros p q H E. apply ak_now in H. inversion H as [| |? ? ? ? ? ? [E1 E2]]; subst. apply teq_false in E. unfold curr in E. rewrite E in E2. now symmetry.
Qed.

Lemma ak_peek : forall p q, akin p q -> peekTok q = peekTok p.
Proof. intros p q H. apply ak_now in H. inversion H as [| |? ? ? ? ? ? _ _ HA]; subst. inversion HA as [|? ? [E1 E2]|]; subst. now symmetry. Qed.

Lemma ak_peekLit : forall p q, akin p q -> peekTok p <> IDENT -> peekLit q = peekLit p.
Proof.
  intros p q H E. apply ak_now in H. inversion H as [| |? ? ? ? ? ? _ _ HA]; subst. inversion HA as [|? ? [E1 E2]|]; subst.
  apply teq_false in E. unfold peekTok in E. rewrite E in E2. now symmetry.
Qed.

Lemma ak_line : forall p q, akin p q -> teq (peekTok q) COMMENT && isSameLineTokens (pos q) (peekPos q) = teq (peekTok p) COMMENT && isSameLineTokens (pos p) (peekPos p).
Proof.
  intros p q H. rewrite (ak_peek _ _ H). destruct (teq (peekTok p) COMMENT) eqn:E; auto. cbn [andb].
  apply ak_now in H. inversion H as [| |? ? ? ? ? ? _ HL _]; subst. unfold isSameLineTokens, pos, peekPos. unfold peekTok in E.
  assert (K : tTok (pk p) = COMMENT) by (destruct (tTok (pk p)); try discriminate E; reflexivity). specialize (HL K).
  destruct (pLine (tPos (cur q)) =? pLine (tPos (pk q))) eqn:E1, (pLine (tPos (cur p)) =? pLine (tPos (pk p))) eqn:E2; auto; exfalso.
  - apply Z.eqb_eq in E1. apply Z.eqb_neq in E2. apply E2. now apply HL.
  - apply Z.eqb_neq in E1. apply Z.eqb_eq in E2. apply E1. now apply HL.
Qed.

Lemma pnext_akin : forall p q, akin p q -> relRes (fun a b => akin a b /\ curr a = peekTok p) (pnext X p) (pnext X q).
Proof.
  intros p q H. unfold pnext. pose proof (ak_toks _ _ H 1%nat) as H1. cbn [scans] in H1.
  destruct (scan X (lx p)) as [[t l]| | |] eqn:E1, (scan X (lx q)) as [[t' l']| | |] eqn:E2; cbn [rbind relRes] in *; auto.
  split; [|reflexivity]. constructor; cbn [cur pk lx perrors env tasks]; try apply H. intros n. pose proof (ak_toks _ _ H (S n)) as HN. cbn [scans] in HN. rewrite E1, E2 in HN. cbn [rbind] in HN.
  destruct (scans X n l) as [[ts m]| | |], (scans X n l') as [[ts' m']| | |]; cbn [rbind relRes fst] in *; auto. inversion HN; subst. assumption.
Qed.

Lemma pnext_only : forall p q, akin p q -> relRes akin (pnext X p) (pnext X q).
Proof. intros p q H. pose proof (pnext_akin p q H) as K. destruct (pnext X p), (pnext X q); cbn [relRes] in *; tauto. Qed.

Lemma addTask_akin : forall p q t t', akin p q -> rt t = bareTask t' -> akin (addTask p t) (addTask q t').
Proof. intros p q t t' H E. constructor; try apply H. unfold addTask. cbn [tasks]. rewrite !map_app. cbn [map]. now rewrite (ak_tasks _ _ H), E. Qed.

Lemma addDiag_akin : forall p q d d', akin p q -> rb d = bare d' -> akin (addDiag p d) (addDiag q d').
Proof. intros p q d d' H E. constructor; try apply H. unfold addDiag. cbn [perrors]. rewrite !map_app. cbn [map]. now rewrite (ak_errs _ _ H), E. Qed.

Definition akinFn (f g : entryFn) : Prop := forall prec p q, akin p q -> relRes akinRes (f prec p) (g prec q).
Definition akinPair {A B} (g g' : A -> B) (a b : A * parser) : Prop := g (fst a) = g' (fst b) /\ akin (snd a) (snd b).
Definition akinSum {A B} (g : A -> B) (a b : (A * parser) + (diag * parser)) : Prop :=
  match a, b with
  | inl x, inl y => g (fst x) = g (fst y) /\ akin (snd x) (snd y)
  | inr x, inr y => rb (fst x) = bare (fst y) /\ akin (snd x) (snd y)
  | _, _ => False
  end.

Ltac same := repeat match goal with
  | H : akin ?p ?q |- _ => progress rewrite ?(ak_line _ _ H), ?(ak_curr _ _ H), ?(ak_peek _ _ H)
  | H : akin ?p ?q, K : curr ?p <> IDENT |- context [currLit ?q] => rewrite (ak_lit _ _ H K)
  | H : akin ?p ?q, K : curr ?p = IDENT |- context [currLit ?q] => rewrite (ak_name _ _ H K)
  end.
Ltac ret := cbn [relRes]; unfold akinRes, akinPair; cbn [fst snd]; split; [cbn [ren strip option_map]; same; try reflexivity; try congruence|
  match goal with |- _ /\ _ => split; [cbn [option_map] in *; try congruence; unfold rb, bare, renDiag, err; cbn [dMsg renMsg bareMsg]; same; try reflexivity; try congruence|] | _ => idtac end; try assumption].
Ltac next := eapply rel_bind; [apply pnext_akin; eassumption|let HA := fresh "HA" in let HC := fresh "HC" in intros ? ? [HA HC]]; cbv beta; same.
Ltac entry := eapply rel_bind; [match goal with HP : akinFn _ _ |- _ => apply HP; eassumption end|
  let HN := fresh "HN" in let HG := fresh "HG" in let HL := fresh "HL" in intros [[? d] ?] [[? d'] ?] (HN & HG & HL); cbn [fst snd] in HN, HG, HL; destruct d as [d|], d' as [d'|]; try discriminate HG]; cbv beta; same.

Lemma commentLoop_akin : forall f acc acc' p q, akin p q -> map stripC acc = map stripC acc' ->
  relRes (akinPair (map stripC) (map stripC)) (commentLoop X f acc p) (commentLoop X f acc' q).
Proof.
  induction f as [|f IH]; intros acc acc' p q H E; cbn [commentLoop]; same; (destruct (teq (peekTok p) COMMENT) eqn:ET; [|split; auto]); [exact I|].
  apply teq_true in ET. next. assert (K : curr x <> IDENT) by congruence. apply IH; auto. rewrite !map_app. cbn [map]. rewrite E. unfold stripC, parseInnerComment. cbn [cText]. same. reflexivity.
Qed.

Lemma parseComment_akin : forall f p q, curr p <> IDENT -> akin p q -> relRes akinRes (parseComment X f p) (parseComment X f q).
Proof.
  intros f p q K H. unfold parseComment. eapply rel_bind.
  - apply commentLoop_akin; [exact H|]. cbn [map]. unfold stripC, parseInnerComment. cbn [cText]. same. reflexivity.
  - intros [l p1] [l' q1] [E HL]. cbn [fst snd] in *. destruct l as [|c [|c1 l]], l' as [|c' [|c1' l']]; cbn [map] in E; try discriminate E; ret; cbn [map]; congruence.
Qed.

Lemma inner_akin : forall p q, curr p <> IDENT -> akin p q -> stripC (parseInnerComment p) = stripC (parseInnerComment q).
Proof. intros p q K H. unfold stripC, parseInnerComment. cbn [cText]. same. reflexivity. Qed.

Lemma entryTrailing_akin : forall p q, akin p q -> relRes (akinPair (option_map stripC) (option_map stripC)) (entryTrailing X p) (entryTrailing X q).
Proof.
  intros p q H. unfold entryTrailing. same. destruct (_ && _) eqn:ET; [|ret]. apply andb_true_iff in ET as [ET _]. apply teq_true in ET.
  next. ret. cbn [option_map]. f_equal. apply inner_akin; congruence.
Qed.

Lemma ruleTrailing_akin : forall p q, akin p q -> relRes (akinPair (option_map stripC) (option_map stripC)) (ruleTrailing X p) (ruleTrailing X q).
Proof.
  intros p q H. unfold ruleTrailing. same. destruct (_ && _) eqn:ET; [|ret]. apply andb_true_iff in ET as [ET _]. apply teq_true in ET.
  next. next. ret. cbn [option_map]. f_equal. apply inner_akin; congruence.
Qed.

Lemma expectPeek_akin : forall t p q, akin p q -> relRes akin (expectPeek X t p) (expectPeek X t q).
Proof. intros t p q H. unfold expectPeek. same. destruct (teq (peekTok p) t); [now apply pnext_only|exact H]. Qed.

Definition stripUU (a : option uintLit * option uintLit) := (option_map stripU (fst a), option_map stripU (snd a)).

Lemma parseTagHead_akin : forall p q, akin p q -> relRes (akinSum stripUU) (parseTagHead X p) (parseTagHead X q).
Proof.
  intros p q H. unfold parseTagHead. same. destruct (peekTok p) eqn:ET; try (cbn [relRes akinSum fst snd]; split; auto; fail).
  - next. assert (K : curr x <> IDENT) by congruence. same. destruct (parseUint (currLit x)); cbn [relRes akinSum fst snd]; split; auto.
  - next. assert (K : curr x <> IDENT) by congruence. unfold parseFloatTag. same. destruct (splitDot (currLit x)) as [|a [|b [|? ?]]]; try (cbn [relRes akinSum fst snd]; split; auto; fail).
    destruct (parseUint a); [cbn [relRes akinSum fst snd]; split; auto|]. destruct (parseUint b); cbn [relRes akinSum fst snd]; split; auto.
Qed.

Lemma occUpper_akin : forall p q, akin p q -> relRes (akinSum (option_map stripU)) (occUpper X p) (occUpper X q).
Proof.
  intros p q H. unfold occUpper. same.
  assert (EB : teq (peekTok p) INT && isLiteral (peekTok p) (peekLit q) = teq (peekTok p) INT && isLiteral (peekTok p) (peekLit p)).
  { destruct (teq (peekTok p) INT) eqn:ET; auto. apply teq_true in ET. rewrite (ak_peekLit _ _ H); congruence. }
  rewrite EB. clear EB. destruct (_ && _) eqn:ET; next; [|cbn [relRes akinSum fst snd]; split; auto].
  apply andb_true_iff in ET as [ET _]. apply teq_true in ET. assert (K : curr x <> IDENT) by congruence.
  unfold parseUintType, parseUintLiteral. same. destruct (isLiteral (curr x) (currLit x)); cbn [rbind]; [|cbn [relRes akinSum fst snd]; split; auto].
  destruct (parseUint (currLit x)); cbn [rbind relRes akinSum fst snd]; split; auto.
Qed.

Definition lowerRel (a b : uintLit + diag) : Prop :=
  match a, b with inl x, inl y => stripU x = stripU y | inr x, inr y => rb x = bare y | _, _ => False end.

Lemma ends_akin : forall {A} (R : A -> A -> Prop) n n' (f g : position -> position -> res A), sn n n' -> (forall a b a' b', relRes R (f a b) (g a' b')) ->
  relRes R (s <- node_start n;; e <- node_end n;; f s e) (s <- node_start n';; e <- node_end n';; g s e).
Proof.
  intros A R n n' f g H HF. eapply rel_bind; [apply start_rn; exact H|]. intros a a' _. eapply rel_bind; [apply end_rn; exact H|]. intros b b' _. apply HF.
Qed.

Lemma occLower_akin : forall n n' p q, sn n n' -> akin p q -> relRes lowerRel (occLower n p) (occLower n' q).
Proof.
  intros n n' p q E H.
  assert (G : relRes lowerRel (s <- node_start n;; e <- node_end n;; Ok (inr (err (MOccType (curr p)) s e)))
    (s <- node_start n';; e <- node_end n';; Ok (inr (err (MOccType (curr q)) s e)))).
  { apply ends_akin; auto. intros. cbn [relRes lowerRel]. unfold rb, bare. cbn [renDiag renMsg err dMsg bareMsg]. same. reflexivity. }
  destruct n, n'; try discriminate E; try exact G.
  - cbn [occLower relRes lowerRel]. cbn [ren strip] in E. congruence.
  - cbn [ren strip] in E. injection E as <- <-. cbn [occLower]. destruct (v <? 0); [|reflexivity].
    apply (ends_akin lowerRel (NIntegerLiteral p0 t v) (NIntegerLiteral p1 t v)); auto.
    intros. cbn [relRes lowerRel]. unfold rb, bare. cbn [renDiag renMsg err dMsg bareMsg]. same. reflexivity.
Qed.

Lemma parseOccurrence_akin : forall pe pe' n n' p q, akinFn pe pe' -> sn n n' -> akin p q ->
  relRes akinRes (parseOccurrence X pe n p) (parseOccurrence X pe' n' q).
Proof.
  intros pe pe' n n' p q HP E H. unfold parseOccurrence. eapply rel_bind; [apply occLower_akin; eauto|].
  intros [u|d] [u'|d'] HU; cbn [lowerRel] in HU; try contradiction.
  - eapply rel_bind; [apply occUpper_akin; eauto|]. intros [[w p1]|[d p1]] [[w' q1]|[d' q1]] HW; cbn [akinSum fst snd] in HW; try contradiction; destruct HW as [HW HL].
    + unfold peCurr. same. entry; ret.
    + ret.
  - ret.
Qed.

Lemma parseLitBound_akin : forall pe pe' b n n' p q, akinFn pe pe' -> sn n n' -> akin p q ->
  relRes akinRes (parseLitBound X pe b n p) (parseLitBound X pe' b n' q).
Proof.
  intros pe pe' b n n' p q HP E H. unfold parseLitBound. next. unfold peCurr. same. entry; [ret|].
  destruct n0, n1; try discriminate HN; try (ret; fail); cbn [ren strip] in HN; destruct b; try (ret; fail).
  - apply ends_akin; [exact HN|]. intros. ret. apply addTask_akin; auto. unfold rt. cbn [renTask bareTask]. injection HN as HN. now rewrite HN.
  - apply ends_akin; [exact HN|]. intros. ret. apply addTask_akin; auto. unfold rt. cbn [renTask bareTask]. injection HN as HN. now rewrite HN.
  - apply ends_akin; [exact HN|]. intros. ret.
  - apply ends_akin; [exact HN|]. intros. ret.
Qed.

Lemma parseBound_akin : forall pe pe' n n' p q, akinFn pe pe' -> sn n n' -> akin p q ->
  relRes akinRes (parseBound X pe n p) (parseBound X pe' n' q).
Proof.
  intros pe pe' n n' p q HP E H. destruct n, n'; try discriminate E; try (cbn [parseBound]; ret; fail); cbn [parseBound].
  - cbn [ren strip] in E. unfold parseIdentBound. next. unfold peCurr. same. entry; [ret|]. ret. apply addTask_akin; auto. unfold rt; cbn [renTask bareTask ren strip] in *. same. congruence.
  - now apply parseLitBound_akin.
  - now apply parseLitBound_akin.
Qed.

Lemma wrap_akin : forall n n', sn n n' -> relRes (fun a b => sn a b) (wrapBadNode n) (wrapBadNode n').
Proof. intros n n' E. unfold wrapBadNode. apply ends_akin; auto. intros. cbn [relRes ren strip]. congruence. Qed.

Lemma fmt_rho : forall v, rho (fmtD v) = fmtD v.
Proof.
  intros v. apply (nm_other _ NM). unfold identStart. destruct (Z_lt_ge_dec v 0) as [N|N].
  - unfold fmtD. apply Z.ltb_lt in N. rewrite N. cbn [hd]. lia.
  - destruct (fmt_numeral v) as (_ & F & NE); [lia|]. destruct (fmtD v) as [|c w]; [congruence|]. inversion F; subst. cbn [hd]. lia.
Qed.

Lemma runLed_akin : forall pe pe' k n n' p q, curr p <> IDENT -> akinFn pe pe' -> sn n n' -> akin p q ->
  relRes akinRes (runLed X pe k n p) (runLed X pe' k n' q).
Proof.
  intros pe pe' k n n' p q NI HP E H. destruct k; cbn [runLed]; try (apply parseOccurrence_akin; auto; fail); try (apply parseBound_akin; auto; fail).
  - unfold parseColon. 
    assert (HK : option_map (fun i => stripI (renI rho i)) (match n with NIdentifier i => Some i | NIntegerLiteral _ _ v => Some (mkIdent (pos p) (fmtD v)) | _ => None end) =
      option_map stripI (match n' with NIdentifier i => Some i | NIntegerLiteral _ _ v => Some (mkIdent (pos q) (fmtD v)) | _ => None end)).
    { destruct n, n'; try discriminate E; try reflexivity; cbn [ren strip] in E; cbn [option_map]; [congruence|]. injection E as -> ->. unfold stripI, renI. cbn [iName]. now rewrite fmt_rho. }
    destruct (match n with NIdentifier i => Some i | NIntegerLiteral _ _ v => Some (mkIdent (pos p) (fmtD v)) | _ => None end) as [i|],
      (match n' with NIdentifier i => Some i | NIntegerLiteral _ _ v => Some (mkIdent (pos q) (fmtD v)) | _ => None end) as [i'|]; try discriminate HK.
    + cbn [option_map] in HK. next. unfold peCurr. same. entry; [ret|]. eapply rel_bind; [apply entryTrailing_akin; eassumption|]. intros [c r] [c' r'] [HCC HR]. cbn [fst snd] in *. ret.
    + ret.
  - unfold parseTypeChoice. next. unfold peCurr. same. entry; ret.
  - unfold parseComparatorOp. same. rewrite <- (typeOf_rn _ _ E). destruct (typeOf n) as [[]|]; try (ret; fail); next; unfold peCurr; same; entry; ret.
  - unfold parseSizeOperator. rewrite <- (typeOf_rn _ _ E). destruct (typeOf n) as [[]|]; try (ret; fail); next; unfold peCurr; same; entry; ret.
  - unfold parseRegexp. rewrite <- (typeOf_rn _ _ E). destruct (typeOf n) as [[]|]; try exact I. same.
    assert (HB : option_map (fun pk : position * token => (z, snd pk)) (match n with NTstrType ps t => Some (ps, t) | _ => None end) =
      option_map (fun pk : position * token => (z, snd pk)) (match n' with NTstrType ps t => Some (ps, t) | _ => None end)).
    { destruct n, n'; try discriminate E; try reflexivity. cbn [ren strip] in E. injection E as ->. reflexivity. }
    destruct (_ && _); [ret|]. next. unfold peCurr. same. entry; ret.
  - unfold parseBits. next. unfold peCurr. same. entry; [|ret]. eapply rel_bind; [apply wrap_akin; eassumption|]. intros a b HAB. cbv beta in HAB. ret.
  - unfold parseComma. ret.
Qed.

Lemma bracketLoop_akin : forall pe pe' stop keep, akinFn pe pe' -> (forall a b, sn a b -> keep a = keep b) -> forall f acc acc' p q, akin p q -> map rs acc = map strip acc' ->
  relRes (fun a b => map rs (fst (fst a)) = map strip (fst (fst b)) /\ option_map rb (snd (fst a)) = option_map bare (snd (fst b)) /\ akin (snd a) (snd b))
    (bracketLoop X pe stop keep f acc p) (bracketLoop X pe' stop keep f acc' q).
Proof.
  intros pe pe' stop keep HP HK. induction f as [|f IH]; intros acc acc' p q H E; cbn [bracketLoop]; same; (destruct (teq (curr p) stop); [cbn; auto|]); [exact I|].
  unfold peCurr. same. entry; [cbn [relRes fst snd]; auto|]. eapply rel_bind; [apply pnext_only; eassumption|]. intros p2 q2 H2. apply IH; auto.
  rewrite (HK _ _ HN). destruct (keep _); auto. rewrite !map_app, E. cbn [map]. unfold rs. now rewrite HN.
Qed.

Lemma chooseNud_akin : forall p q, akin p q -> chooseNud q = chooseNud p.
Proof. intros p q H. unfold chooseNud. same. reflexivity. Qed.

Lemma chooseNud_kind : forall p k, chooseNud p = Some k -> if match k with NuIdentifier | NuNamedIdentifier => true | _ => false end then curr p = IDENT else curr p <> IDENT.
Proof.
  intros p k E. unfold chooseNud in E. destruct (curr p); cbn [teq andb] in E; try discriminate E; try (destruct (teq (peekTok p) COLON)); try (injection E as <-; reflexivity || discriminate); discriminate E.
Qed.

Lemma map_rs : forall l, map strip (map (ren rho) l) = map rs l.
Proof. intros l. now rewrite map_map. Qed.

Lemma runNud_akin : forall pe pe' f k p q, chooseNud p = Some k -> akinFn pe pe' -> akin p q -> relRes akinRes (runNud X pe f k p) (runNud X pe' f k q).
Proof.
  intros pe pe' f k p q CH HP H. apply chooseNud_kind in CH. destruct k; cbv match in CH; cbn [runNud]; try (apply parseComment_akin; auto; fail);
    try (unfold parsePrefixOccurrence; apply parseOccurrence_akin; auto; fail); try (solve [ret]).
  - unfold parseNamedIdentifier. same. pose proof (nm_dollar _ NM (currLit p)) as ND.
    destruct (currLit p) as [|c w] eqn:E; [rewrite (nm_other _ NM []) by (unfold identStart; cbn [hd]; lia); exact I|].
    destruct (rho (c :: w)) as [|c' w'] eqn:E'.
    { rewrite <- (nm_other _ NM []) in E' by (unfold identStart; cbn [hd]; lia). apply (nm_inj _ NM) in E'. discriminate. }
    cbn [hd] in ND. assert (EC : (c' =? 36) = (c =? 36)) by (destruct (c =? 36) eqn:E1, (c' =? 36) eqn:E2; auto; lia).
    rewrite EC. ret.
    { unfold stripI, renI. cbn [iName]. now rewrite E'. }
    destruct (c =? 36); auto. apply addTask_akin; auto. unfold rt. cbn [renTask bareTask]. now rewrite E'.
  - unfold parseBooleanLiteral. same. destruct (beq _ _); [ret|]. destruct (beq _ _); ret.
  - unfold parseFloatType, parseFloatLiteral. same. destruct (isLiteral _ _); [|ret]. destruct (xParseFloat _ _); ret.
  - unfold parseUintType, parseUintLiteral. same. destruct (isLiteral _ _); [|ret]. destruct (parseUint _); ret.
  - unfold parseIntegerType, parseIntegerLiteral. same. destruct (isLiteral _ _); [|ret]. destruct (parseInt _); ret.
  - unfold parseMap. next. eapply rel_bind; [apply bracketLoop_akin; eauto using notNil_rn|]. intros [[l d] p2] [[l' d'] q2] (E1 & E2 & E3). cbn [fst snd] in *. ret. rewrite map_rs. congruence.
  - unfold parseGroup. next. eapply rel_bind; [apply bracketLoop_akin; eauto using entry_rn|]. intros [[l d] p2] [[l' d'] q2] (E1 & E2 & E3). cbn [fst snd] in *. ret. rewrite map_rs. congruence.
  - unfold parseArray. next. eapply rel_bind; [apply bracketLoop_akin; eauto using entry_rn|]. intros [[l d] p2] [[l' d'] q2] (E1 & E2 & E3). cbn [fst snd] in *. ret. rewrite map_rs. congruence.
  - unfold parseOptional. next. unfold peCurr. same. entry; ret.
  - unfold parseUnwrap. next. unfold peCurr. same. entry; ret.
  - unfold parseTag. eapply rel_bind; [apply parseTagHead_akin; eassumption|].
    intros [[[a b] p1]|[d p1]] [[[a' b'] q1]|[d' q1]] HT; cbn [akinSum fst snd] in HT; try contradiction; destruct HT as [HT HL].
    + same. unfold stripUU in HT. cbn [fst snd] in HT. injection HT as HT1 HT2. destruct (teq (peekTok p1) LPAREN); [|ret]. next. next. unfold peCurr. same. entry; [ret|].
      eapply rel_bind; [apply expectPeek_akin; eassumption|]. intros p5 q5 H5. ret.
    + ret.
  - unfold parseEnumeration. next. unfold peCurr. same. entry; ret.
Qed.

Lemma ledLoop_akin : forall pe pe' prec, akinFn pe pe' -> forall f n n' p q, sn n n' -> akin p q ->
  relRes akinRes (ledLoop X pe f prec n p) (ledLoop X pe' f prec n' q).
Proof.
  intros pe pe' prec HP. induction f as [|f IH]; intros n n' p q E H; cbn [ledLoop]; same; (destruct (_ && _); [|ret]); (destruct (ledFor (peekTok p)) eqn:EL; [|ret]); [exact I|].
  next. eapply rel_bind; [apply runLed_akin; try eassumption; intros K; rewrite K in HC; rewrite <- HC in EL; discriminate EL|]. intros [[m d] p2] [[m' d'] q2] (E1 & E2 & E3). cbn [fst snd] in *.
  destruct d, d'; try discriminate E2; [ret|]. apply IH; auto.
Qed.

Lemma parseEntry_akin : forall f, akinFn (parseEntry X f) (parseEntry X f).
Proof.
  induction f as [|f IH]; intros prec p q H; [exact I|]. cbn [parseEntry]. eapply rel_bind.
  - instantiate (1 := akin). unfold skipComments. same. destruct (teq (curr p) COMMENT) eqn:ET; [|exact H]. apply teq_true in ET.
    eapply rel_bind; [apply parseComment_akin; [congruence|exact H]|].
    intros [[a b] c] [[a' b'] c'] (_ & _ & HL). cbn [snd] in HL. now apply pnext_only.
  - intros p1 q1 H1. rewrite (chooseNud_akin _ _ H1). destruct (chooseNud p1) eqn:EC; [|unfold errorUnexpectedPrefix; ret].
    eapply rel_bind; [apply runNud_akin; eassumption|]. intros [[m d] p2] [[m' d'] q2] (E1 & E2 & E3). cbn [fst snd] in *.
    destruct d, d'; try discriminate E2; [ret|]. apply ledLoop_akin; auto.
Qed.

Lemma beq_rho : forall v w, beq (rho v) (rho w) = beq v w.
Proof.
  intros v w. destruct (beq v w) eqn:E; [apply beq_eq in E as ->; now apply beq_eq|].
  destruct (beq (rho v) (rho w)) eqn:E1; auto. apply beq_eq in E1. apply (nm_inj _ NM) in E1. subst w. assert (beq v v = true) by now apply beq_eq. congruence.
Qed.

Lemma assoc_akin : forall k e e', map rd e = map bareDef e' -> option_map rs (assoc k e) = option_map strip (assoc (rho k) e').
Proof.
  intros k. induction e as [|[w v] e IH]; intros [|[w' v'] e'] E; try discriminate E; auto. cbn [map rd bareDef renDef fst snd] in E. injection E as <- HV E.
  cbn [assoc]. rewrite beq_rho. destruct (beq w k); [cbn [option_map]; unfold rs; congruence|]. now apply IH.
Qed.

Lemma exists_akin : forall k e e', map rd e = map bareDef e' -> exists_ e k = exists_ e' (rho k).
Proof. intros k e e' E. apply (assoc_akin k) in E. unfold exists_. destruct (assoc k e), (assoc (rho k) e'); try discriminate E; reflexivity. Qed.

Lemma get_akin : forall k e e', map rd e = map bareDef e' -> sn (get e k) (get e' (rho k)).
Proof. intros k e e' E. apply (assoc_akin k) in E. unfold get. destruct (assoc k e), (assoc (rho k) e'); try discriminate E; [|reflexivity]. now injection E. Qed.

Lemma setEnv_akin : forall p q e e', akin p q -> map rd e = map bareDef e' -> akin (setEnv p e) (setEnv q e').
Proof. intros p q e e' H E. constructor; try apply H. exact E. Qed.

Lemma registerRule_akin : forall i i' n n' p q, rho (iName i) = iName i' -> sn n n' -> akin p q -> relRes akin (registerRule i n p) (registerRule i' n' q).
Proof.
  intros i i' n n' p q EI E H. unfold registerRule, add. rewrite <- EI, <- (exists_akin (iName i) _ _ (ak_env _ _ H)).
  destruct (exists_ (env p) (iName i)); cbn [env setEnv].
  - eapply rel_bind; [apply start_rn, get_akin, H|]. intros a b _. apply addDiag_akin; [apply setEnv_akin; auto; apply H|].
    unfold rb, bare, renDiag, err. cbn [dMsg renMsg bareMsg]. reflexivity.
  - cbn [relRes]. apply setEnv_akin; auto. rewrite !map_app. cbn [map]. f_equal; [apply H|]. unfold rd, bareDef, renDef. cbn [fst snd]. now rewrite E, EI.
Qed.

Lemma parseRule_akin : forall f p q, akin p q -> relRes akinRes (parseRule X f p) (parseRule X f q).
Proof.
  intros f p q H. unfold parseRule. same. destruct (curr p) eqn:EC; try (unfold errorTokenExpected; ret; fail); [apply parseComment_akin; auto; congruence|].
  next. destruct (curr x); try (ret; fail).
  - next. eapply rel_bind; [apply parseEntry_akin; eassumption|]. intros [[m d] p2] [[m' d'] q2] (E1 & E2 & E3). cbn [fst snd] in *.
    destruct d, d'; try discriminate E2; [ret|]. eapply rel_bind; [apply ruleTrailing_akin; eassumption|]. intros [c r] [c' r'] [HCC HR]. cbn [fst snd] in *.
    eapply rel_bind; [apply registerRule_akin; [|eassumption|eassumption]; cbn [iName]; same; reflexivity|]. intros p5 q5 H5. ret. unfold stripI, renI. cbn [iName]. same. congruence.
  - next. eapply rel_bind; [apply parseEntry_akin; eassumption|]. intros [[m d] p2] [[m' d'] q2] (E1 & E2 & E3). cbn [fst snd] in *.
    destruct d, d'; try discriminate E2; [ret|]. eapply rel_bind; [apply ruleTrailing_akin; eassumption|]. intros [c r] [c' r'] [HCC HR]. cbn [fst snd] in *. ret. unfold stripI, renI. cbn [iName]. same. congruence.
  - next. eapply rel_bind; [apply parseEntry_akin; eassumption|]. intros [[m d] p2] [[m' d'] q2] (E1 & E2 & E3). cbn [fst snd] in *.
    destruct d, d'; try discriminate E2; [ret|]. eapply rel_bind; [apply ruleTrailing_akin; eassumption|]. intros [c r] [c' r'] [HCC HR]. cbn [fst snd] in *. ret. unfold stripI, renI. cbn [iName]. same. congruence.
Qed.

Lemma handle_akin : forall p q d d', akin p q -> option_map rb d = option_map bare d' -> akin (handle p d) (handle q d').
Proof. intros p q d d' H E. destruct d, d'; try discriminate E; auto. apply addDiag_akin; auto. cbn [option_map] in E. congruence. Qed.

Lemma fileLoop_akin : forall rf f acc acc' p q, akin p q -> map rs acc = map strip acc' ->
  relRes (akinPair (map rs) (map strip)) (fileLoop X rf f acc p) (fileLoop X rf f acc' q).
Proof.
  intros rf. induction f as [|f IH]; intros acc acc' p q H E; cbn [fileLoop]; same; (destruct (teq (curr p) EOF); [split; auto|]); [exact I|].
  eapply rel_bind; [apply parseRule_akin; eassumption|]. intros [[m d] p1] [[m' d'] q1] (E1 & E2 & E3). cbn [fst snd] in *.
  eapply rel_bind; [apply pnext_only, handle_akin; eassumption|]. intros p2 q2 H2. apply IH; auto.
  rewrite (notNil_rn _ _ E1). destruct (notNil m'); auto. rewrite !map_app, E. cbn [map]. unfold rs. now rewrite E1.
Qed.

Lemma runTask_akin : forall e e' t t', map rd e = map bareDef e' -> rt t = bareTask t' ->
  option_map rb (runTask e t) = option_map bare (runTask e' t').
Proof.
  intros e e' t t' HE HT. unfold rt in HT. destruct t, t'; try discriminate HT; cbn [renTask bareTask] in HT; cbn [runTask].
  - injection HT as <-. rewrite (exists_akin _ _ _ HE). destruct (exists_ e' (rho name)); reflexivity.
  - injection HT as <- HL HO. destruct to, to0; try discriminate HO; try reflexivity. cbn [ren strip] in HO. injection HO as HO.
    cbn [iName] in *. rewrite <- HL, <- HO.
    pose proof (get_akin (iName left) _ _ HE) as G1. pose proof (get_akin (iName i) _ _ HE) as G2.
    unfold sameType. rewrite (typeOf_rn _ _ G1), (typeOf_rn _ _ G2).
    destruct (match typeOf (get e' (rho (iName left))) with Some k => _ | None => _ end); auto.
    cbn [option_map]. unfold rb, bare, renDiag, err. cbn [dMsg renMsg bareMsg]. now rewrite G1, G2.
  - injection HT as <-. rewrite (exists_akin _ _ _ HE), (typeOf_rn _ _ (get_akin name _ _ HE)).
    destruct (exists_ e' (rho name)); [|reflexivity]. destruct (typeOf (get e' (rho name))) as [[]|]; reflexivity.
  - injection HT as <-. rewrite (exists_akin _ _ _ HE), (typeOf_rn _ _ (get_akin name _ _ HE)).
    destruct (exists_ e' (rho name)); [|reflexivity]. destruct (typeOf (get e' (rho name))) as [[]|]; reflexivity.
Qed.

Lemma runTasks_akin : forall p q, akin p q -> akin (runTasks p) (runTasks q).
Proof.
  intros p q H. unfold runTasks. pose proof (ak_env _ _ H) as HE. pose proof (ak_tasks _ _ H) as HT.
  revert HE HT. generalize (env p) (env q) (tasks p) (tasks q). intros e e' ts ts' HE. revert ts' p q H.
  induction ts as [|t ts IH]; intros [|t' ts'] p q H HT; try discriminate HT; auto. cbn [map] in HT. injection HT as HT1 HT2.
  cbn [fold_left]. apply IH; auto. apply handle_akin; auto. now apply runTask_akin.
Qed.

(** Outcomes of a parse, positions apart. *)
Definition akinOut (a b : fileResult * parser) : Prop :=
  option_map rs (fst (fst a)) = option_map strip (fst (fst b)) /\
  option_map (map rb) (snd (fst a)) = option_map (map bare) (snd (fst b)) /\
  map rb (perrors (snd a)) = map bare (perrors (snd b)) /\
  map rd (env (snd a)) = map bareDef (env (snd b)) /\
  map rt (tasks (snd a)) = map bareTask (tasks (snd b)).

Theorem parseSource_akin : forall fuel s s' e e',
  (forall n, relRes (fun a b => Renamed rho (fst a) (fst b)) (scans X n (newLexer s)) (scans X n (newLexer s'))) ->
  (forall t l t' l', scans X 2 (newLexer s) = Ok (t, l) -> scans X 2 (newLexer s') = Ok (t', l') -> (errors l = [] <-> errors l' = [])) ->
  map rd e = map bareDef e' ->
  relRes akinOut (parseSource X fuel s e) (parseSource X fuel s' e').
Proof.
  intros fuel s s' e e' HS HE HD. unfold parseSource. rewrite !newParser_toks. pose proof (HS 2%nat) as H2.
  destruct (scans X 2 (newLexer s)) as [[ts l]| | |] eqn:E1, (scans X 2 (newLexer s')) as [[ts' l']| | |] eqn:E2; cbn [relRes] in H2; try contradiction; cbn [rbind]; try exact I.
  pose proof (scans_len _ _ _ _ _ E1) as L1. pose proof (scans_len _ _ _ _ _ E2) as L2.
  destruct ts as [|t [|u [|? ?]]], ts' as [|t' [|u' [|? ?]]]; try discriminate L1; try discriminate L2. cbn [rbind].
  assert (HP : akin (mkParser l t u [] e []) (mkParser l' t' u' [] e' [])).
  { constructor; auto. intros n. cbn [cur pk lx]. specialize (HS (2 + n)%nat). rewrite !scans_app, E1, E2 in HS. cbn [rbind] in HS.
    destruct (scans X n l) as [[us m]| | |], (scans X n l') as [[us' m']| | |]; cbn [rbind relRes] in *; auto. }
  specialize (HE _ _ _ _ eq_refl eq_refl). unfold parseFile. cbn [lx]. destruct (errors l), (errors l').
  - eapply rel_bind; [apply fileLoop_akin; [eassumption|reflexivity]|]. intros [r p] [r' q] [ER HL]. cbn [fst snd] in *.
    pose proof (runTasks_akin _ _ HL) as HT. unfold akinOut. cbn [relRes fst snd option_map]. replace (rs (NCDDL zeroPos r)) with (strip (NCDDL zeroPos r')) by (unfold rs; cbn [ren strip]; now rewrite map_rs, ER). repeat split; try apply HT.
    pose proof (ak_errs _ _ HT) as HQ. unfold collect. destruct (perrors (runTasks p)), (perrors (runTasks q)); try discriminate HQ; auto. cbn [option_map]. now rewrite HQ.
  - destruct HE as [HE _]. specialize (HE eq_refl). discriminate.
  - destruct HE as [_ HE]. specialize (HE eq_refl). discriminate.
  - repeat split; try apply HP.
Qed.
End Rename.
