(** Property C87: the order of diagnostics. *)
From Coq Require Import String Sorted.
From Verif Require Import Base Utf8 Token Ext Strconv Lexer LexSpec LexSpec2 LexSpec3 LexWords LexSeq LexHang
  Ast Env Diag Parser ParseSpec ParseFacts ParseTop ParseSource ParseLoop ParseFrame Props_Lexer Props_LexFull Props_Says Props_Append.
Open Scope string_scope.
Open Scope list_scope.
Open Scope Z_scope.

(** ** Specification *)

(** The byte where a diagnostic starts and where it ends. *)
Definition starts (d : diag) : Z := pOffset (dStart d).
Definition ends (d : diag) : Z := pOffset (dEnd d).

(** Diagnostics that need the names of the whole file. *)
Definition ofNames (d : diag) : Prop :=
  match dMsg d with
  | MNotExist _ | MRangeTypes _ _ _ _ _ | MIntUpper | MFloatUpper => True
  | _ => False
  end.

(** ** Tokens *)

Definition off (t : tokInfo) : Z := pOffset (tPos t).

Lemma lexed_len : forall X k text lit rest, Lexed X k text lit rest -> (k <> EOF -> text <> []) /\ (k = IDENT -> lit = text).
Proof.
  intros X k text lit rest H. inversion H; subst; split; try congruence; try discriminate.
  - intros _ ->. match goal with K : In _ punctTable |- _ => cbn in K; repeat (destruct K as [K|K]; [discriminate K|]); contradiction end.
Qed.

Lemma consecutive_off : forall X s t u, decodable s -> Consecutive X s t u ->
  off t <= off u /\ (tTok t <> EOF -> off t < off u) /\ (tTok t = IDENT -> off t + zlen (tLit t) <= off u).
Proof.
  intros X s t u D (n & ts & l & H). pose proof (Props_Says.scans_len _ _ _ _ _ H) as L. rewrite app_length in L. cbn [length] in L.
  replace n with (length ts + 2)%nat in H by lia.
  destruct (Props_Says.scans_app _ _ _ _ _ _ H) as (a & b & l1 & E & La & Lb & H1 & H2).
  destruct (Props_Says.app_inj_length _ _ _ _ _ E) as [<- <-]; [lia|]. destruct (scans_new X s _ _ _ D H1) as (k & _ & HS). cbn [scans] in H2.
  destruct (scan X l1) as [[t1 l2]| | |] eqn:E1; try discriminate. cbn [rbind] in H2. destruct (scan X l2) as [[t2 l3]| | |] eqn:E2; try discriminate. cbn [rbind] in H2. injection H2 as <- <- _.
  destruct (scan_full X s l1 k HS) as [[E3 _]|(g & tk & text & lit & rest & l4 & N & E3 & HS2 & _)]; [congruence|]. rewrite E3 in E1. injection E1 as <- <-.
  destruct (scan_full X s l4 _ HS2) as [[E4 _]|(g2 & tk2 & text2 & lit2 & rest2 & l5 & N2 & E4 & _)]; [congruence|]. rewrite E4 in E2. injection E2 as <- <-.
  unfold off. cbn [tPos tTok tLit posAt pOffset]. destruct N as (_ & _ & NL). destruct (lexed_len _ _ _ _ _ NL) as [K1 K2].
  split; [lia|]. split.
  - intros NE. specialize (K1 NE). destruct text; [congruence|]. cbn [length]. lia.
  - intros ->. rewrite K2 by reflexivity. unfold zlen. lia.
Qed.

Lemma consecutive_eof : forall X s t u, decodable s -> Consecutive X s t u -> tTok t = EOF -> tTok u = EOF.
Proof.
  intros X s t u D (n & ts & l & H). pose proof (Props_Says.scans_len _ _ _ _ _ H) as L. rewrite app_length in L. cbn [length] in L.
  replace n with (length ts + 2)%nat in H by lia.
  destruct (Props_Says.scans_app _ _ _ _ _ _ H) as (a & b & l1 & E & La & Lb & H1 & H2).
  destruct (Props_Says.app_inj_length _ _ _ _ _ E) as [<- <-]; [lia|]. destruct (scans_new X s _ _ _ D H1) as (k & _ & HS). cbn [scans] in H2.
  destruct (scan X l1) as [[t1 l2]| | |] eqn:E1; try discriminate. cbn [rbind] in H2. destruct (scan X l2) as [[t2 l3]| | |] eqn:E2; try discriminate. cbn [rbind] in H2. injection H2 as <- <- _.
  destruct (scan_full X s l1 k HS) as [[E3 _]|(g & tk & text & lit & rest & l4 & N & E3 & HS2 & _)]; [congruence|]. rewrite E3 in E1. injection E1 as <- <-.
  destruct (scan_full X s l4 _ HS2) as [[E4 _]|(g2 & tk2 & text2 & lit2 & rest2 & l5 & _ & E4 & _ & _ & U)]; [congruence|]. rewrite E4 in E2. injection E2 as <- <-.
  cbn [tTok]. intros ->. destruct N as (N1 & _ & NL). destruct (lexed_eof _ _ _ _ NL) as (-> & -> & ->). cbn [app length] in *. rewrite app_nil_r in N1.
  destruct (U [] EOF [] [] []) as (_ & K & _); [|now symmetry]. split; [|split; constructor]. cbn [app]. apply skipn_all2. pose proof (f_equal (@length Z) N1) as K. rewrite skipn_length in K. lia.
Qed.

(** ** The parser *)

Section Proof.
Variables (X : Ext) (s : bytes).
Hypothesis HD : decodable s.

Notation Good := (Props_Says.Good X s).

Lemma good_off : forall p, Good p -> off (cur p) <= off (pk p) /\ (curr p <> EOF -> off (cur p) < off (pk p)) /\ (curr p = IDENT -> off (cur p) + zlen (currLit p) <= off (pk p)).
Proof. intros p H. exact (consecutive_off X s _ _ HD (good_cur X s p H)). Qed.

(** Where the diagnostic of a deferred check ends, if it can give one. *)
Definition taskEnd (t : task) : list Z :=
  match t with
  | TExists _ p => [pOffset p]
  | TIdentBound _ _ (NIdentifier i) => [pOffset (iPos i)]
  | TIdentBound _ _ _ => []
  | TIntBound _ _ q | TFloatBound _ _ q => [pOffset q]
  end.

Definition taskEnds (l : list task) : list Z := flat_map taskEnd l.

(** The deferred checks are in order and end before byte [z]. *)
Definition upTo (z : Z) (p : parser) : Prop := StronglySorted Z.le (taskEnds (tasks p)) /\ Forall (fun x => x <= z) (taskEnds (tasks p)).

Definition Strong (p : parser) : Prop := Good p /\ upTo (off (cur p)) p.
Definition Weak (p : parser) : Prop := Good p /\ upTo (off (pk p)) p.

Definition Within (lo hi : Z) (n : node) : Prop := forall q, node_start n = Ok q -> lo <= pOffset q <= hi.

(** After a name the checks end where it does, at the latest. *)
Definition IdTail (n : node) (q : parser) : Prop :=
  match n with
  | NIdentifier i => upTo (pOffset (iPos i)) q /\ pOffset (iPos i) + zlen (iName i) <= off (pk q)
  | _ => True
  end.

(** A diagnostic given while reading, which starts between two bytes. *)
Definition span (lo : Z) (d : diag) (hi : Z) : Prop := lo <= starts d <= hi /\ ~ ofNames d.

Definition Res (lo : Z) (n : node) (d : option diag) (q : parser) : Prop :=
  match d with
  | None => Within lo (off (cur q)) n /\ IdTail n q
  | Some x => span lo x (off (cur q))
  end.

Definition okO (lo : Z) (r : pres) : Prop := ok r (fun a => let '(n, d, q) := a in Weak q /\ lo <= off (cur q) /\ Res lo n d q).

Definition fnO (pe : entryFn) : Prop := forall prec p lo, Strong p -> lo <= off (cur p) -> okO lo (pe prec p).

Lemma upTo_le : forall a b p, upTo a p -> a <= b -> upTo b p.
Proof. intros a b p [H1 H2] L. split; auto. eapply Forall_impl; [|exact H2]. intros x K. cbv beta in K. lia. Qed.

Lemma strong_weak : forall p, Strong p -> Weak p.
Proof. intros p [H1 H2]. split; auto. eapply upTo_le; [exact H2|]. apply good_off; auto. Qed.

Lemma sorted_snoc : forall l z, StronglySorted Z.le l -> Forall (fun x => x <= z) l -> StronglySorted Z.le (l ++ [z]).
Proof.
  induction l as [|a l IH]; intros z H F; cbn [app]; [constructor; constructor|]. inversion H; subst. inversion F; subst. constructor; auto.
  apply Forall_app. auto.
Qed.

Lemma upTo_task : forall p t z, upTo z p -> (forall x, In x (taskEnd t) -> z <= x) -> (length (taskEnd t) <= 1)%nat -> forall z', z <= z' -> (forall x, In x (taskEnd t) -> x <= z') -> upTo z' (addTask p t).
Proof.
  intros p t z [H1 H2] L N z' Z1 Z2. unfold upTo, taskEnds. cbn [tasks addTask]. rewrite flat_map_app. cbn [flat_map]. rewrite app_nil_r. fold (taskEnds (tasks p)).
  destruct (taskEnd t) as [|x [|y r]]; [|..|cbn [length] in N; lia].
  - rewrite app_nil_r. apply (upTo_le z z' p); auto. split; auto.
  - specialize (L x (or_introl eq_refl)). specialize (Z2 x (or_introl eq_refl)). split.
    + apply sorted_snoc; auto. eapply Forall_impl; [|exact H2]. intros y K. cbv beta in K. lia.
    + apply Forall_app. split; [|constructor; auto]. eapply Forall_impl; [|exact H2]. intros y K. cbv beta in K. lia.
Qed.

Lemma next_O : forall p (Q : parser -> Prop), Weak p -> (forall q, Strong q -> off (cur p) <= off (cur q) -> cur q = pk p -> tasks q = tasks p -> Q q) -> ok (pnext X p) Q.
Proof.
  intros p Q (HG & HT) HQ q E. destruct (next_good X s _ _ HG E) as (K1 & K2 & K3). assert (ET : tasks q = tasks p).
  { unfold pnext in E. destruct (scan X (lx p)) as [[t l]| | |]; try discriminate. injection E as <-. reflexivity. }
  apply HQ; auto.
  - split; auto. unfold upTo in *. rewrite ET, K3. exact HT.
  - rewrite K3. now apply good_off.
Qed.

Lemma pe_O : forall pe p lo (Q : node * option diag * parser -> Prop), fnO pe -> Strong p -> lo <= off (cur p) ->
  (forall n d q, Weak q -> lo <= off (cur q) -> off (cur p) <= off (cur q) -> Res lo n d q -> Q (n, d, q)) -> ok (peCurr pe p) Q.
Proof.
  intros pe p lo Q HP H HL HQ [[n d] q] E. destruct (HP _ _ lo H HL _ E) as (K1 & K2 & K3). destruct (HP _ _ (off (cur p)) H (Z.le_refl _) _ E) as (_ & K4 & _). now apply HQ.
Qed.

Ltac sp :=
  repeat match goal with H : span _ _ _ |- _ => destruct H end; split;
  [unfold starts, off, pos in *; cbn [dStart errorTokenExpected errorUnexpectedPrefix errorUnsupportedTypes err] in *; lia|first [assumption|intros K; exact K]].

Ltac ostep lo :=
  match goal with
  | |- okO _ _ => unfold okO
  | |- ok (rbind _ _) _ => apply ok_bind
  | HI : Strong ?p |- ok (pnext X ?p) _ => apply (next_O p _ (strong_weak _ HI)); intros
  | HI : Weak ?p |- ok (pnext X ?p) _ => apply (next_O p _ HI); intros
  | HP : fnO ?pe, HI : Strong ?p |- ok (peCurr ?pe ?p) _ => apply (pe_O pe p lo _ HP HI); [lia|intros]
  | |- ok (Ok _) _ => apply ok_ret
  | |- ok Panic _ => intros ? ?; discriminate
  | |- ok Hang _ => intros ? ?; discriminate
  | |- ok NoFuel _ => intros ? ?; discriminate
  | |- ok (match ?x with _ => _ end) _ => destruct x
  | H : Res _ _ (Some _) _ |- _ => cbn [Res] in H
  | H : Res _ _ None _ |- _ => cbn [Res] in H; destruct H as [? ?]
  | |- ok (let '(_, _) := ?x in _) _ => destruct x
  | HI : Weak ?q |- Weak ?q /\ _ => split; [exact HI|split; [lia|]]
  | HI : Strong ?q |- Weak ?q /\ _ => split; [exact (strong_weak _ HI)|split; [lia|]]
  | |- Res _ _ (Some _) _ => cbn [Res]; solve [assumption | sp]
  | |- Res _ _ None _ => split; [|exact Logic.I]; solve [within]
  | |- forall _, _ => intros
  end
with within := assumption || (let q := fresh in let E := fresh in intros q E; cbn [node_start] in E; solve [discriminate E | injection E as <-; unfold off, pos in *; cbn [rStart uPos]; lia
   | match goal with H : Within _ _ ?n, E : node_start ?n = Ok _ |- _ => specialize (H _ E); lia end]).
Ltac osolve lo := repeat (cbv beta iota; ostep lo).

Lemma commentLoop_O : forall f acc p lo, Weak p -> lo <= off (cur p) -> ok (commentLoop X f acc p) (fun a => Weak (snd a) /\ lo <= off (cur (snd a)) /\ exists r, fst a = acc ++ r).
Proof.
  induction f as [|f IH]; intros acc p lo H L; cbn [commentLoop]; destruct (teq (peekTok p) COMMENT); try (intros ? ?; discriminate);
    try (apply ok_ret; cbn [fst snd]; split; auto; split; auto; exists []; now rewrite app_nil_r).
  apply ok_bind. apply (next_O p _ H). intros q HQ L2 _ _. eapply ok_mono; [apply (IH _ q lo); [now apply strong_weak|lia]|]. intros [l q'] (K1 & K2 & r & ->). cbn [fst snd] in *.
  split; auto. split; auto. eexists. now rewrite <- app_assoc.
Qed.

Lemma parseComment_O : forall f p lo, Weak p -> lo <= off (cur p) -> ok (parseComment X f p) (fun a => let '(n, d, q) := a in Weak q /\ lo <= off (cur q) /\ d = None).
Proof.
  intros f p lo H L. unfold parseComment. apply ok_bind. eapply ok_mono; [apply (commentLoop_O f _ p lo); auto|]. intros [l q] (K1 & K2 & _). cbn [fst snd] in *.
  destruct l as [|c [|c2 l]]; apply ok_ret; auto.
Qed.

Lemma bracketLoop_O : forall pe stop keep lo, fnO pe -> forall f acc p, Strong p -> lo <= off (cur p) ->
  ok (bracketLoop X pe stop keep f acc p) (fun a => let '(l, d, q) := a in Weak q /\ lo <= off (cur q) /\ match d with Some x => span lo x (off (cur q)) | None => True end).
Proof.
  intros pe stop keep lo HP. induction f as [|f IH]; intros acc p H L; cbn [bracketLoop]; destruct (teq (curr p) stop) eqn:E; osolve lo; auto.
  apply IH; auto. lia.
Qed.

Lemma occLower_O : forall left p lo, Within lo (off (cur p)) left ->
  ok (occLower left p) (fun r => match r with inl u => lo <= pOffset (uPos u) <= off (cur p) | inr d => span lo d (off (cur p)) end).
Proof.
  intros left p lo HW.
  assert (D : forall (m : msg), ~ ofNames (err m zeroPos zeroPos) -> ok (s0 <- node_start left;; e0 <- node_end left;; Ok (@inr uintLit diag (err m s0 e0)))
    (fun r => match r with inl u => lo <= pOffset (uPos u) <= off (cur p) | inr d => span lo d (off (cur p)) end)).
  { intros m HM. apply ok_bind. intros a E. apply ok_bind. intros b _. apply ok_ret. split; [exact (HW a E)|exact HM]. }
  unfold occLower. destruct left; try (apply D; intros K; exact K).
  - apply ok_ret. now apply HW.
  - match goal with |- ok (if ?b then _ else _) _ => destruct b end; [apply D; intros K; exact K|]. apply ok_ret. now apply HW.
Qed.

Lemma occUpper_O : forall p lo, Strong p -> lo <= off (cur p) ->
  ok (occUpper X p) (fun r => match r with inl (_, q) => Strong q /\ off (cur p) <= off (cur q) | inr (d, q) => Weak q /\ off (cur p) <= off (cur q) /\ span lo d (off (cur q)) end).
Proof.
  intros p lo H L. unfold occUpper. destruct (teq (peekTok p) INT && isLiteral (peekTok p) (peekLit p)); apply ok_bind; apply (next_O p _ (strong_weak _ H)); intros q HQ L2 _ _; [|apply ok_ret; auto].
  apply ok_bind. unfold parseUintType, parseUintLiteral. destruct (isLiteral (curr q) (currLit q)); [destruct (parseUint (currLit q))|]; apply ok_ret; apply ok_ret; auto.
  split; [now apply strong_weak|]. split; auto. sp.
Qed.

Lemma parseOccurrence_O : forall pe left p lo, fnO pe -> Strong p -> lo <= off (cur p) -> Within lo (off (cur p)) left -> okO lo (parseOccurrence X pe left p).
Proof.
  intros pe left p lo HP H L HW. unfold parseOccurrence. apply ok_bind. eapply ok_mono; [apply (occLower_O _ _ lo HW)|].
  intros [u|d] K; [|osolve lo]. apply ok_bind. eapply ok_mono; [apply (occUpper_O p lo); auto|]. intros [[u' q]|[d q]].
  - intros [K1 K2]. osolve lo.
  - intros (K1 & K2 & K3). osolve lo.
Qed.

Lemma tagHead_O : forall p lo, Strong p -> lo <= off (cur p) ->
  ok (parseTagHead X p) (fun r => match r with inl (_, _, q) => Strong q /\ off (cur p) <= off (cur q) | inr (d, q) => Weak q /\ off (cur p) <= off (cur q) /\ span lo d (off (cur q)) end).
Proof.
  intros p lo H L. unfold parseTagHead.
  assert (DEF : ok (Ok (inl (@None uintLit, @None uintLit, p))) (fun r : (option uintLit * option uintLit * parser) + (diag * parser) =>
    match r with inl (_, _, q) => Strong q /\ off (cur p) <= off (cur q) | inr (d, q) => Weak q /\ off (cur p) <= off (cur q) /\ span lo d (off (cur q)) end)).
  { apply ok_ret. split; auto. lia. }
  assert (ER : forall m q, ~ ofNames (err m zeroPos zeroPos) -> Strong q -> off (cur p) <= off (cur q) -> Weak q /\ off (cur p) <= off (cur q) /\ span lo (err m (pos q) (pos q)) (off (cur q))).
  { intros m q HM HQ L2. split; [now apply strong_weak|]. split; auto. split; [unfold starts, off, pos in *; cbn [dStart err]; lia|exact HM]. }
  assert (ERR : forall m q, ~ ofNames (err m zeroPos zeroPos) -> Strong q -> off (cur p) <= off (cur q) -> ok (Ok (inr (err m (pos q) (pos q), q))) (fun r : (option uintLit * option uintLit * parser) + (diag * parser) =>
    match r with inl (_, _, q) => Strong q /\ off (cur p) <= off (cur q) | inr (d, q) => Weak q /\ off (cur p) <= off (cur q) /\ span lo d (off (cur q)) end)) by (intros; apply ok_ret; now apply ER).
  destruct (peekTok p); try exact DEF; apply ok_bind; apply (next_O p _ (strong_weak _ H)); intros q HQ L2 _ _.
  - destruct (parseUint (currLit q)); [apply ERR; auto|apply ok_ret; auto].
  - unfold parseFloatTag. destruct (splitDot (currLit q)) as [|a [|b [|c r]]]; try (apply ERR; auto; fail).
    destruct (parseUint a); [apply ERR; auto|]. destruct (parseUint b); [apply ERR; auto|apply ok_ret; auto].
Qed.

Lemma expectPeek_O : forall k p lo, Weak p -> lo <= off (cur p) -> ok (expectPeek X k p) (fun q => Weak q /\ lo <= off (cur q)).
Proof.
  intros k p lo H L. unfold expectPeek. destruct (teq (peekTok p) k); [|apply ok_ret; auto]. apply (next_O p _ H). intros q HQ L2 _ _. split; [now apply strong_weak|lia].
Qed.

Lemma tag_O : forall pe p lo, fnO pe -> Strong p -> lo <= off (cur p) -> okO lo (parseTag X pe p).
Proof.
  intros pe p lo HP H L. unfold parseTag. apply ok_bind. eapply ok_mono; [apply (tagHead_O p lo); auto|]. intros [[[a c] q]|[d q]].
  - intros [K1 K2]. destruct (teq (peekTok q) LPAREN); osolve lo. eapply ok_mono; [apply (expectPeek_O RPAREN _ (off (cur q1))); [assumption|lia]|]. intros q9 [K9 K8]. osolve lo.
  - intros (K1 & K2 & K3). osolve lo.
Qed.

Lemma bracket_O : forall pe stop keep (mk : list node -> node) f p lo, fnO pe -> Strong p -> lo <= off (cur p) -> (forall l, node_start (mk l) = Ok (pos p) /\ forall q, IdTail (mk l) q) ->
  okO lo (p1 <- pnext X p;; '(l, d, p2) <- bracketLoop X pe stop keep f [] p1;; Ok (mk l, d, p2)).
Proof.
  intros pe stop keep mk f p lo HP H L HM. apply ok_bind. apply (next_O p _ (strong_weak _ H)). intros q HQ L2 _ _. apply ok_bind.
  eapply ok_mono; [apply (bracketLoop_O pe stop keep (off (cur q)) HP f [] q HQ); lia|]. intros [[l d] q'] (K1 & K2 & K3). apply ok_ret. split; auto. split; [lia|]. destruct d; [cbn [Res]; sp|].
  destruct (HM l) as [M1 M2]. split; auto. intros x E. rewrite M1 in E. injection E as <-. unfold pos. fold (off (cur p)). lia.
Qed.

Lemma runNud_O : forall pe f n p lo, fnO pe -> Strong p -> lo <= off (cur p) -> chooseNud p = Some n -> okO lo (runNud X pe f n p).
Proof.
  intros pe f n p lo HP H L HC. pose proof (good_off _ (proj1 H)) as (_ & _ & GI). unfold chooseNud in HC. destruct (teq (curr p) IDENT && teq (peekTok p) COLON) eqn:EC.
  { injection HC as <-. apply andb_prop in EC. destruct EC as [E1 _]. apply teq_true in E1. cbn [runNud]. unfold parseIdentifier. apply ok_ret.
    split; [now apply strong_weak|]. split; auto. split; [within|]. split; [exact (proj2 H)|]. exact (GI E1). }
  clear EC. destruct (curr p) eqn:EK; cbn [nudFor] in HC; try discriminate; injection HC as <-; cbn [runNud];
    try (unfold parsePrefixOccurrence; apply parseOccurrence_O; [exact HP|exact H|exact L|within]);
    try (apply bracket_O; [exact HP|exact H|exact L|]; intros l; split; [reflexivity|intros; exact Logic.I]);
    try (apply tag_O; assumption);
    try (unfold parseOptional, parseEnumeration, parseUnwrap, parseBooleanLiteral, parseFloatType, parseFloatLiteral, parseUintType, parseUintLiteral, parseIntegerType, parseIntegerLiteral; osolve lo; fail).
  - unfold parseComment. apply ok_bind. eapply ok_mono; [apply (commentLoop_O f _ p (off (cur p))); [now apply strong_weak|lia]|]. intros [l q] (K1 & K2 & r & E). cbn [fst snd app] in *. subst l.
    destruct r as [|c r]; apply ok_ret; (split; [exact K1|split; [lia|]]); (split; [|exact Logic.I]); intros x E; cbn [node_start parseInnerComment cPos] in E; injection E as <-; unfold pos; fold (off (cur p)); lia.
  - unfold parseNamedIdentifier. destruct (currLit p) as [|c w] eqn:EW; [osolve lo|]. apply ok_ret.
    assert (UP : forall q, (q = p \/ q = addTask p (TExists (c :: w) (pos p))) -> Strong q /\ cur q = cur p /\ pk q = pk p).
    { intros q [->| ->]; auto. split; [|auto]. split; [exact (proj1 H)|]. cbn [cur addTask]. apply (upTo_task p _ (off (cur p))); [apply H| | |lia|].
      - intros x [<-|[]]. unfold pos, off. lia.
      - cbn. lia.
      - intros x [<-|[]]. unfold pos, off. lia. }
    destruct (UP (if c =? 36 then p else addTask p (TExists (c :: w) (pos p)))) as (U1 & U2 & U3); [destruct (c =? 36); auto|].
    split; [now apply strong_weak|]. rewrite U2. split; [exact L|]. split; [rewrite U2; within|]. cbn [IdTail iPos iName]. rewrite U3. split; [|apply GI; reflexivity].
    destruct U1 as [_ U1]. rewrite U2 in U1. exact U1.
  - unfold parseUintType, parseUintLiteral. destruct (isLiteral (curr p) (currLit p)); [destruct (parseUint (currLit p))|]; osolve lo.
Qed.

Lemma bound_O : forall pe left p lo, fnO pe -> Strong p -> lo <= off (cur p) -> Within lo (off (cur p)) left -> okO lo (parseBound X pe left p).
Proof.
  intros pe left p lo HP H L HW. unfold parseBound.
  assert (HT : forall q2 i t, Weak q2 -> IdTail (NIdentifier i) q2 ->
    taskEnd t = [pOffset (iPos i)] \/ taskEnd t = [pOffset (iPos i) + zlen (iName i)] -> Weak (addTask q2 t)).
  { intros q2 i t [HG _] [U1 U2] HE. split; [exact HG|]. cbn [pk addTask]. assert (0 <= zlen (iName i)) by (unfold zlen; lia).
    apply (upTo_task q2 t _ U1); destruct HE as [HE|HE]; rewrite ?HE; try (cbn; lia); intros x [<-|[]]; lia. }
  assert (HLit : forall isInt, okO lo (parseLitBound X pe isInt left p)).
  { intros isInt. unfold parseLitBound. apply ok_bind. apply (next_O p _ (strong_weak _ H)). intros q HQ L2 _ _. apply ok_bind. apply (pe_O pe q (off (cur q)) _ HP HQ (Z.le_refl _)). intros to d q2 HQ2 L3 _ HR. cbv beta iota.
    assert (FIN : forall x q3, Weak q3 -> cur q3 = cur q2 -> okO lo (Ok (NRange (pos p) (curr p) left x, None, q3))).
    { intros x q3 HQ3 EC. apply ok_ret. split; auto. rewrite EC. split; [lia|]. split; [|exact Logic.I]. intros y E. cbn [node_start] in E. rewrite EC. specialize (HW _ E). lia. }
    destruct d as [d|]; [apply ok_ret; split; auto; split; [lia|]; cbn [Res] in *; sp|]. destruct HR as [HR HI]. destruct to; try (apply FIN; [exact HQ2|reflexivity]).
    - cbn [node_start node_end rbind]. apply FIN; [|reflexivity]. apply (HT q2 i _ HQ2 HI). right. destruct isInt; reflexivity.
    - destruct isInt; [|apply FIN; auto]. cbn [node_start node_end rbind]. apply ok_ret. split; auto. split; [lia|]. cbn [Res].
      pose proof (HR _ eq_refl). sp.
    - destruct isInt; [apply FIN; auto|]. cbn [node_start node_end rbind]. apply ok_ret. split; auto. split; [lia|]. cbn [Res].
      pose proof (HR _ eq_refl). sp. }
  destruct left; auto; try (osolve lo; fail).
  unfold parseIdentBound. apply ok_bind. apply (next_O p _ (strong_weak _ H)). intros q HQ L2 _ _. apply ok_bind. apply (pe_O pe q (off (cur q)) _ HP HQ (Z.le_refl _)). intros to d q2 HQ2 L3 _ HR. cbv beta iota.
  destruct d as [d|]; [apply ok_ret; split; auto; split; [lia|]; cbn [Res] in *; sp|]. destruct HR as [HR HI]. apply ok_ret. split; [|split; [cbn [cur addTask]; lia|split; [|exact Logic.I]]].
  - destruct to; try (split; [exact (proj1 HQ2)|]; unfold upTo, taskEnds; cbn [tasks addTask pk]; rewrite flat_map_app; cbn [flat_map taskEnd app]; rewrite app_nil_r; exact (proj2 HQ2)).
    apply (HT q2 i0 _ HQ2 HI). now left.
  - intros y E. cbn [node_start] in E. specialize (HW y E). cbn [cur addTask]. lia.
Qed.

Lemma runLed_O : forall pe k left p lo, fnO pe -> Strong p -> lo <= off (cur p) -> Within lo (off (cur p)) left -> IdTail left p -> okO lo (runLed X pe k left p).
Proof.
  intros pe k left p lo HP H L HW HI. destruct k; cbn [runLed].
  - unfold parseColon. assert (F : forall i, lo <= pOffset (iPos i) <= off (cur p) ->
      okO lo (p1 <- pnext X p;; '(v, d, p2) <- peCurr pe p1;; match d with Some _ => Ok (v, d, p2) | None => '(tc, p3) <- entryTrailing X p2;; Ok (NEntry (pos p) i v tc, None, p3) end)).
    { intros i Hi. unfold entryTrailing. osolve lo. }
    destruct left; try (osolve lo; fail).
    + apply F. now apply HW.
    + apply F. cbn [iPos]. unfold pos. fold (off (cur p)). lia.
  - unfold parseTypeChoice. osolve lo.
  - unfold parseComparatorOp. osolve lo.
  - unfold parseSizeOperator. osolve lo.
  - unfold parseRegexp. osolve lo. split; [|exact Logic.I]. intros y E. destruct left; try discriminate E. specialize (HW y E). lia.
  - unfold parseBits. osolve lo. apply ok_any. intros b9. osolve lo.
  - now apply bound_O.
  - now apply parseOccurrence_O.
  - apply ok_ret. split; [now apply strong_weak|]. split; auto. split; auto.
Qed.

Lemma idTail_next : forall n p q, Weak p -> IdTail n p -> Strong q -> cur q = pk p -> tasks q = tasks p -> IdTail n q.
Proof.
  intros n p q HW HI HS EC ET. destruct n; try exact Logic.I. destruct HI as [U1 U2]. split; [unfold upTo in *; now rewrite ET|]. pose proof (good_off _ (proj1 HS)) as (K & _). rewrite EC in K. lia.
Qed.

Lemma ledLoop_O : forall pe prec lo, fnO pe -> forall f e p, Weak p -> lo <= off (cur p) -> Within lo (off (cur p)) e -> IdTail e p -> okO lo (ledLoop X pe f prec e p).
Proof.
  intros pe prec lo HP. assert (STOP : forall e p, Weak p -> lo <= off (cur p) -> Within lo (off (cur p)) e -> IdTail e p -> okO lo (Ok (e, None, p))).
  { intros e p H L HW HI. apply ok_ret. split; auto. split; auto. split; auto. }
  induction f as [|f IH]; intros e p H L HW HI; cbn [ledLoop]; (destruct (negb (teq (curr p) COMMA) && (prec <? precedence (peekTok p))); [destruct (ledFor (peekTok p)) as [k|] eqn:EK|]); try (apply STOP; assumption); try (intros ? ?; discriminate).
  apply ok_bind. apply (next_O p _ H). intros q HQ L2 EC ET. apply ok_bind. eapply ok_mono; [apply (runLed_O pe k e q lo); auto; [lia| |eapply idTail_next; eauto]|].
  - intros y E. specialize (HW y E). lia.
  - intros [[e1 d] q2] (K1 & K2 & K3). destruct d; [apply ok_ret; auto|]. destruct K3. now apply IH.
Qed.

Lemma skipComments_O : forall f p, Strong p -> ok (skipComments X f p) (fun q => Strong q /\ off (cur p) <= off (cur q)).
Proof.
  intros f p H. unfold skipComments. destruct (teq (curr p) COMMENT); [|apply ok_ret; split; auto; lia]. apply ok_bind.
  eapply ok_mono; [apply (parseComment_O f p (off (cur p))); [now apply strong_weak|lia]|]. intros [[n d] q] (K1 & K2 & _). apply (next_O q _ K1). intros q' HQ L _ _. split; auto. lia.
Qed.

Lemma parseEntry_O : forall f, fnO (parseEntry X f).
Proof.
  induction f as [|f IH]; intros prec p lo H L; cbn [parseEntry]; [intros ? ?; discriminate|].
  apply ok_bind. eapply ok_mono; [apply skipComments_O; auto|]. intros q [HQ L2]. destruct (chooseNud q) as [n|] eqn:EN; [|assert (L3 : lo <= off (cur q)) by lia; osolve lo].
  apply ok_bind. eapply ok_mono; [apply (runNud_O (parseEntry X f) f n q lo); auto; lia|]. intros [[e d] q2] (K1 & K2 & K3). destruct d; [apply ok_ret; auto|]. destruct K3. now apply ledLoop_O.
Qed.

(** ** Rules *)

(** The diagnostics so far start before byte [z], one after the other. *)
Definition Before (z : Z) (l : list diag) : Prop := StronglySorted Z.lt (map starts l) /\ Forall (fun d => starts d < z /\ ~ ofNames d) l.

Lemma sorted_snoc_lt : forall l z, StronglySorted Z.lt l -> Forall (fun x => x < z) l -> StronglySorted Z.lt (l ++ [z]).
Proof.
  induction l as [|a l IH]; intros z H F; cbn [app]; [constructor; constructor|]. inversion H; subst. inversion F; subst. constructor; auto.
  apply Forall_app. auto.
Qed.

Lemma before_one : forall lo hi l d, Before lo l -> lo <= starts d -> starts d < hi -> ~ ofNames d -> Before hi (l ++ [d]).
Proof.
  intros lo hi l d [H1 H2] L1 L2 HN. split.
  - rewrite map_app. apply sorted_snoc_lt; auto. apply Forall_map. eapply Forall_impl; [|exact H2]. intros x [K _]. cbv beta in *. lia.
  - apply Forall_app. split; [|constructor; auto]. eapply Forall_impl; [|exact H2]. intros x [K1 K2]. cbv beta in *. split; [lia|exact K2].
Qed.

Lemma before_le : forall lo hi l, Before lo l -> lo <= hi -> Before hi l.
Proof. intros lo hi l [H1 H2] L. split; auto. eapply Forall_impl; [|exact H2]. intros x [K1 K2]. cbv beta in *. split; [lia|exact K2]. Qed.

(** What an attempt to read a rule adds to the diagnostics: at most one, which starts in it. *)
Definition attempt (p : parser) (d : option diag) (q : parser) : Prop :=
  exists more, perrors (handle q d) = perrors p ++ more /\
  match more with [] => True | [x] => span (off (cur p)) x (off (cur q)) | _ => False end.

Lemma ruleTrailing_O : forall p, Weak p -> ok (ruleTrailing X p) (fun a => Weak (snd a) /\ off (cur p) <= off (cur (snd a))).
Proof.
  intros p H. unfold ruleTrailing. destruct (teq (peekTok p) COMMENT && isSameLineTokens (pos p) (peekPos p)); [|apply ok_ret; cbn [snd]; split; auto; lia].
  apply ok_bind. apply (next_O p _ H). intros q HQ L _ _. apply ok_bind. apply (next_O q _ (strong_weak _ HQ)). intros q' HQ' L' _ _. apply ok_ret. cbn [snd]. split; [now apply strong_weak|lia].
Qed.

Lemma parseRule_O : forall f p, Strong p -> ok (parseRule X f p) (fun a => let '(n, d, q) := a in Weak q /\ off (cur p) <= off (cur q) /\ attempt p d q).
Proof.
  intros f p H. unfold parseRule.
  assert (ONE : forall q d, perrors q = perrors p -> span (off (cur p)) d (off (cur q)) -> attempt p (Some d) q).
  { intros q d E L. exists [d]. cbn [handle perrors addDiag]. rewrite E. auto. }
  assert (NONE : forall q, perrors q = perrors p -> attempt p None q).
  { intros q E. exists []. cbn [handle]. rewrite app_nil_r. auto. }
  assert (HERE : forall q m e, ~ ofNames (err m zeroPos zeroPos) -> off (cur p) <= off (cur q) -> span (off (cur p)) (err m (pos p) e) (off (cur q))).
  { intros q m e HM L. split; [unfold starts, off, pos in *; cbn [dStart err]; lia|exact HM]. }
  assert (DEF : ok (Ok (NNil, Some (errorTokenExpected (pos p) IDENT), p)) (fun a => let '(n, d, q) := a in Weak q /\ off (cur p) <= off (cur q) /\ attempt p d q)).
  { apply ok_ret. split; [now apply strong_weak|]. split; [lia|]. apply ONE; auto. apply HERE; [intros K; exact K|lia]. }
  destruct (curr p) eqn:EK; try exact DEF.
  - intros [[n d] q] E. destruct (parseComment_O f p (off (cur p)) (strong_weak _ H) (Z.le_refl _) _ E) as (K1 & K2 & ->). split; auto. split; auto. apply NONE.
    destruct (parseComment_keeps _ _ _ _ _ _ E) as (_ & K & _). exact K.
  - apply ok_bind. intros p1 E1. pose proof (keeps_next _ _ _ E1) as KE1.
    assert (I1 : Strong p1 /\ off (cur p) <= off (cur p1)) by (apply (next_O p (fun q => Strong q /\ off (cur p) <= off (cur q)) (strong_weak _ H)); auto). destruct I1 as [I1 L1].
    assert (DEF1 : ok (Ok (NNil, Some (err (MExpectedAssign (currLit p)) (pos p) (pos p)), p1)) (fun a => let '(n, d, q) := a in Weak q /\ off (cur p) <= off (cur q) /\ attempt p d q)).
    { apply ok_ret. split; [now apply strong_weak|]. split; auto. apply ONE; [apply KE1|]. apply HERE; auto. }
    assert (HEnt : forall prec (k : node -> option comment -> parser -> pres),
      (forall e tc q, Weak q -> off (cur p) <= off (cur q) -> keeps p q -> ok (k e tc q) (fun a => let '(n, d, q) := a in Weak q /\ off (cur p) <= off (cur q) /\ attempt p d q)) ->
      ok (p2 <- pnext X p1;; '(e, d, p3) <- parseEntry X f (prec p2) p2;;
        match d with Some _ => Ok (NRule zeroPos (mkIdent (pos p) (currLit p)) NNil None, d, p3)
        | None => '(tc, p4) <- ruleTrailing X p3;; k e tc p4 end) (fun a => let '(n, d, q) := a in Weak q /\ off (cur p) <= off (cur q) /\ attempt p d q)).
    { intros prec k HK. apply ok_bind. intros p2 E2. pose proof (keeps_trans _ _ _ KE1 (keeps_next _ _ _ E2)) as KE2.
      assert (I2 : Strong p2 /\ off (cur p1) <= off (cur p2)) by (apply (next_O p1 (fun q => Strong q /\ off (cur p1) <= off (cur q)) (strong_weak _ I1)); auto). destruct I2 as [I2 L2].
      apply ok_bind. intros [[e d] p3] E3. destruct (parseEntry_O f _ _ (off (cur p2)) I2 (Z.le_refl _) _ E3) as (I3 & L3 & R3). pose proof (keeps_trans _ _ _ KE2 (parseEntry_keeps _ _ _ _ _ _ _ E3)) as KE3.
      destruct d as [d|].
      - apply ok_ret. split; auto. split; [lia|]. apply ONE; [apply KE3|]. cbn [Res] in R3. sp.
      - apply ok_bind. intros [tc p4] E4. destruct (ruleTrailing_O _ I3 _ E4) as [I4 L4]. cbn [snd] in *. apply HK; auto; [lia|]. eapply keeps_trans; [exact KE3|]. eapply ruleTrailing_keeps; eauto. }
    assert (FIN : forall e tc q, Weak q -> off (cur p) <= off (cur q) -> keeps p q ->
      ok (Ok (NRule zeroPos (mkIdent (pos p) (currLit p)) e tc, None, q)) (fun a => let '(n, d, q) := a in Weak q /\ off (cur p) <= off (cur q) /\ attempt p d q)).
    { intros e tc q HQ L HK. apply ok_ret. split; auto. split; auto. apply NONE. apply HK. }
    destruct (curr p1); try exact DEF1.
    + apply (HEnt (fun p2 => precedence (curr p2)) (fun e tc p4 => p5 <- registerRule (mkIdent (pos p) (currLit p)) e p4;; Ok (NRule zeroPos (mkIdent (pos p) (currLit p)) e tc, None, p5))).
      intros e tc q HQ L HK. destruct HK as (_ & KP & _). apply ok_bind. unfold registerRule. destruct (add (env q) (iName (mkIdent (pos p) (currLit p))) e) as [e' dup]. destruct dup.
      * apply ok_bind. intros a _. apply ok_ret. apply ok_ret. split; [exact HQ|]. split; [exact L|]. eexists [_]. cbn [handle perrors addDiag setEnv]. rewrite KP. split; [reflexivity|]. apply HERE; auto.
      * apply ok_ret. apply ok_ret. split; [exact HQ|]. split; [exact L|]. apply NONE. exact KP.
    + apply (HEnt (fun _ => LOWEST) (fun e tc p4 => Ok (NRule zeroPos (mkIdent (pos p) (currLit p)) e tc, None, p4))). exact FIN.
    + apply (HEnt (fun _ => LOWEST) (fun e tc p4 => Ok (NRule zeroPos (mkIdent (pos p) (currLit p)) e tc, None, p4))). exact FIN.
Qed.

Lemma pnext_errs : forall p q, pnext X p = Ok q -> perrors q = perrors p.
Proof. intros p q E. apply (keeps_next _ _ _ E). Qed.

(** After the end of the file there is only the end of the file. *)
Lemma eof_pk : forall p, Good p -> curr p = EOF -> peekTok p = EOF.
Proof. intros p H. exact (consecutive_eof X s _ _ HD (good_cur X s p H)). Qed.

Lemma fileLoop_O : forall rf f acc p, Strong p -> curr p = EOF \/ Before (off (cur p)) (perrors p) -> (exists z, Before z (perrors p)) ->
  ok (fileLoop X rf f acc p) (fun a => Weak (snd a) /\ exists z, Before z (perrors (snd a))).
Proof.
  intros rf. induction f as [|f IH]; intros acc p H HB [z HZ]; cbn [fileLoop]; destruct (teq (curr p) EOF) eqn:EE; try (apply ok_ret; cbn [snd]; split; [now apply strong_weak|exists z; exact HZ]); try (intros ? ?; discriminate).
  apply teq_false in EE. destruct HB as [HB|HB]; [contradiction|]. apply ok_bind. eapply ok_mono; [apply parseRule_O; exact H|]. intros [[e d] p1] (K1 & K2 & more & KE & KM).
  assert (W2 : Weak (handle p1 d)) by (destruct d; exact K1). assert (EC : cur (handle p1 d) = cur p1) by (destruct d; reflexivity). assert (EP : pk (handle p1 d) = pk p1) by (destruct d; reflexivity).
  apply ok_bind. intros p2 E2. pose proof (pnext_errs _ _ E2) as EE2.
  assert (I2 : Strong p2 /\ cur p2 = pk p1). { apply (next_O _ (fun q => Strong q /\ cur q = pk p1) W2); auto. intros q HQ _ HE _. rewrite EP in HE. auto. }
  destruct I2 as [I2 EC2]. pose proof (good_off _ (proj1 K1)) as (G1 & G2 & _).
  assert (BB : forall hi, off (cur p1) < hi -> Before hi (perrors p2)).
  { intros hi HL. rewrite EE2, KE. destruct more as [|x [|y r]]; [|..|contradiction].
    - rewrite app_nil_r. eapply before_le; [exact HB|lia].
    - destruct KM as [KM KN]. eapply before_one; [exact HB|lia|lia|exact KN]. }
  apply IH; auto.
  - destruct (token_eq_dec (curr p1) EOF) as [E|E].
    + left. unfold curr. rewrite EC2. apply eof_pk in E; [exact E|apply K1].
    + right. apply BB. rewrite EC2. auto.
  - exists (off (cur p1) + 1). apply BB. lia.
Qed.
End Proof.

(** ** The theorems *)

Lemma failures_late : forall e tk, Forall late (failures e tk).
Proof.
  intros e tk. unfold failures. induction tk as [|t tk IH]; cbn [flat_map]; [constructor|]. apply Forall_app. split; [|exact IH].
  destruct (runTask e t) as [d|] eqn:E; constructor; [|constructor]. destruct t; cbn [runTask] in E.
  - destruct (exists_ e name); [discriminate|]. injection E as <-. exact Logic.I.
  - destruct to; try discriminate. destruct (sameType _ _); [discriminate|]. injection E as <-. exact Logic.I.
  - destruct (exists_ e name); [|injection E as <-; exact Logic.I]. destruct (typeOf _) as [[]|]; try discriminate; injection E as <-; exact Logic.I.
  - destruct (exists_ e name); [|injection E as <-; exact Logic.I]. destruct (typeOf _) as [[]|]; try discriminate; injection E as <-; exact Logic.I.
Qed.

Lemma task_end : forall e t d, runTask e t = Some d -> taskEnd t = [ends d].
Proof.
  intros e t d E. unfold ends. destruct t; cbn [runTask taskEnd] in *.
  - destruct (exists_ e name); [discriminate|]. now injection E as <-.
  - destruct to; try discriminate. destruct (sameType _ _); [discriminate|]. now injection E as <-.
  - destruct (exists_ e name); [|now injection E as <-]. destruct (typeOf _) as [[]|]; try discriminate; now injection E as <-.
  - destruct (exists_ e name); [|now injection E as <-]. destruct (typeOf _) as [[]|]; try discriminate; now injection E as <-.
Qed.

Lemma failures_sorted : forall e tk, StronglySorted Z.le (taskEnds tk) -> StronglySorted Z.le (map ends (failures e tk)).
Proof.
  intros e tk. assert (SUB : forall x, In x (map ends (failures e tk)) -> In x (taskEnds tk)).
  { intros x. unfold failures, taskEnds. induction tk as [|t tk IH]; cbn [flat_map]; [auto|]. rewrite map_app. intros K. apply in_app_or in K. apply in_or_app. destruct K as [K|K]; [left|auto].
    destruct (runTask e t) as [d|] eqn:E; [|contradiction K]. rewrite (task_end _ _ _ E). exact K. }
  revert SUB. unfold failures, taskEnds. induction tk as [|t tk IH]; intros SUB H; cbn [flat_map map] in *; [constructor|].
  assert (SUB' : forall x, In x (map ends (flat_map (fun t => match runTask e t with Some d => [d] | None => [] end) tk)) -> In x (flat_map taskEnd tk)).
  { intros x. clear. induction tk as [|t tk IH]; cbn [flat_map]; [auto|]. rewrite map_app. intros K. apply in_app_or in K. apply in_or_app. destruct K as [K|K]; [left|auto].
    destruct (runTask e t) as [d|] eqn:E; [|contradiction K]. rewrite (task_end _ _ _ E). exact K. }
  assert (TL : StronglySorted Z.le (flat_map taskEnd tk)). { revert H. clear. induction (taskEnd t) as [|a l IHl]; cbn [app]; auto. intros H. inversion H; auto. }
  destruct (runTask e t) as [d|] eqn:E; cbn [app map]; [|now apply IH]. rewrite (task_end _ _ _ E) in H. cbn [app] in H. inversion H as [|? ? _ F]; subst. constructor; [now apply IH|].
  rewrite Forall_forall in *. auto.
Qed.

Lemma order_parts : forall X s e fuel t ds p', decodable s -> parseSource X fuel s e = Ok ((Some t, ds), p') ->
  exists now, perrors p' = now ++ failures (env p') (tasks p') /\ listed ds = perrors p' /\
  StronglySorted Z.lt (map starts now) /\ Forall (fun d => ~ ofNames d) now /\ StronglySorted Z.le (map ends (failures (env p') (tasks p'))).
Proof.
  intros X s e fuel t ds p' D H. unfold parseSource in H. destruct (newParser X (newLexer s) e) as [p| | |] eqn:EN; try discriminate. cbn [rbind] in H.
  unfold parseFile in H. destruct (errors (lx p)); [|discriminate]. destruct (fileLoop X fuel fuel [] p) as [[rules p1]| | |] eqn:EF; try discriminate. cbn [rbind] in H.
  injection H as _ HC <-. destruct (new_I X s _ _ EN) as ((HG & _) & _).
  assert (E0 : perrors p = [] /\ tasks p = []).
  { clear - EN. unfold newParser, pnext in EN. cbn [lx cur pk perrors env tasks] in EN. destruct (scan X (newLexer s)) as [[t1 l1]| | |]; try discriminate. cbn [rbind lx cur pk perrors env tasks] in EN.
    destruct (scan X l1) as [[t2 l2]| | |]; try discriminate. injection EN as <-. auto. }
  destruct E0 as [E0 E1]. assert (HS : Strong X s p) by (split; [exact HG|]; unfold upTo; rewrite E1; split; constructor).
  assert (HB : forall z, Before z (perrors p)) by (intros z; rewrite E0; split; constructor).
  destruct (fileLoop_O X s D fuel fuel [] p HS (or_intror (HB _)) (ex_intro _ 0 (HB _)) _ EF) as [[_ [W _]] [z [B1 B2]]]. cbn [snd] in *.
  destruct (runTasks_spec p1) as (R1 & R2 & R3 & _). exists (perrors p1). rewrite R2, R3. split; [exact R1|].
  split; [rewrite <- HC; unfold collect; destruct (perrors (runTasks p1)); reflexivity|].
  split; [exact B1|]. split; [eapply Forall_impl; [|exact B2]; intros d [_ K]; exact K|]. now apply failures_sorted.
Qed.

(** The diagnostics of a source come in two runs. The first are those of reading it: they
    start at different bytes, in the order of the text, and none of them needs to know which
    names the file defines. The second are those of the deferred checks, in the order of the
    text as to where they end. *)
Theorem C87_order : forall X s e fuel root ds p', decodable s -> parseSource X fuel s e = Ok ((root, Some ds), p') ->
  exists now later, ds = now ++ later /\
  StronglySorted Z.lt (map starts now) /\ Forall (fun d => ~ ofNames d) now /\
  StronglySorted Z.le (map ends later) /\ Forall late later.
Proof.
  intros X s e fuel root ds p' D H. assert (ER : exists t, root = Some t).
  { unfold parseSource in H. destruct (newParser X (newLexer s) e) as [p| | |]; try discriminate. cbn [rbind] in H. unfold parseFile in H. destruct (errors (lx p)); [|discriminate].
    destruct (fileLoop X fuel fuel [] p) as [[rules p1]| | |]; try discriminate. cbn [rbind] in H. injection H as <- _ _. eauto. }
  destruct ER as [t ->]. destruct (order_parts _ _ _ _ _ _ _ D H) as (now & E1 & E2 & K1 & K2 & K3).
  exists now, (failures (env p') (tasks p')). split; [cbn [listed] in E2; congruence|]. auto using failures_late.
Qed.

(** Two diagnostics of reading, then two of names. *)
Definition disorder : bytes := str "a = x .. y" ++ 10 :: str "x = 1" ++ 10 :: str "b = )" ++ 10 :: str "c d".

Example C87_ex : decodable disorder /\ exists root ds p', parseSource X0 (parseFuel disorder) disorder [] = Ok ((root, Some ds), p') /\
  map (fun d => (starts d, ends d)) ds = [(21, 21); (23, 23); (9, 9); (4, 9)].
Proof. split; [now apply good_by_ascii|]. do 3 eexists. split; vm_compute; reflexivity. Qed.

(** So the list as a whole is not in the order of the text, and neither are the diagnostics of
    names by where they start. *)
Theorem C87_starts_refuted : exists s root ds p', decodable s /\ parseSource X0 (parseFuel s) s [] = Ok ((root, Some ds), p') /\
  ~ StronglySorted Z.le (map starts ds) /\ ~ StronglySorted Z.le (map ends ds) /\ ~ StronglySorted Z.le (map starts (filter (fun d => match dMsg d with MNotExist _ | MRangeTypes _ _ _ _ _ => true | _ => false end) ds)).
Proof.
  exists disorder. do 3 eexists. split; [now apply good_by_ascii|]. split; [vm_compute; reflexivity|].
  assert (BAD : forall a b l, b < a -> ~ StronglySorted Z.le (a :: b :: l)) by (intros a b l L H; inversion H as [|? ? _ F]; subst; inversion F; subst; lia).
  assert (TL : forall a l, ~ StronglySorted Z.le l -> ~ StronglySorted Z.le (a :: l)) by (intros a l N H; inversion H; contradiction).
  split; [|split]; cbn.
  - apply TL. apply BAD. lia.
  - apply TL. apply BAD. lia.
  - apply BAD. lia.
Qed.

(** Start and End of the list: Start is where the first diagnostic of reading begins, and none of reading
    begins before; End is where the last deferred check ends, and none of them ends behind it. *)
Theorem C87_bounds : forall X s e fuel root ds p', decodable s -> parseSource X fuel s e = Ok ((root, Some ds), p') ->
  exists now later, ds = now ++ later /\ Forall (fun d => ~ ofNames d) now /\ Forall late later /\
  (now <> [] -> Forall (fun d => pOffset (errorListStart ds) <= starts d) now) /\ (later <> [] -> Forall (fun d => ends d <= pOffset (errorListEnd ds)) later).
Proof.
  intros X s e fuel root ds p' D H. destruct (C87_order _ _ _ _ _ _ _ D H) as (now & later & -> & S1 & N & S2 & L). exists now, later. split; auto. split; auto. split; auto. split.
  - intros NE. destruct now as [|d now]; [congruence|]. cbn [app errorListStart map] in *. constructor; [unfold starts; lia|]. inversion S1 as [|? ? _ F]; subst. rewrite Forall_map in F.
    eapply Forall_impl; [|exact F]. unfold starts. intros a K. cbn beta in K. lia.
  - intros NE. destruct (exists_last NE) as (r & z & ->).
    assert (E : errorListEnd (now ++ r ++ [z]) = dEnd z).
    { rewrite app_assoc. destruct (now ++ r) as [|d x]; [reflexivity|]. cbn [app errorListEnd]. now rewrite last_last. }
    rewrite E. clear - S2. induction r as [|a r IH]; cbn [app map] in *; [constructor; [unfold ends; lia|constructor]|].
    inversion S2 as [|? ? S3 F]; subst. constructor; [|now apply IH]. rewrite map_app in F. apply Forall_app in F as [_ F]. apply Forall_inv in F. exact F.
Qed.

(** Of the whole list, Start is not the earliest start. *)
Theorem C87_start_refuted : exists s ds d, decodable s /\ (exists root p, parse X0 s = Ok ((root, Some ds), p)) /\ In d ds /\ starts d < pOffset (errorListStart ds).
Proof.
  exists (str "a = x a = 1"), [mkDiag (mkPos [] 6 1 7) (mkPos [] 6 1 7) (MExisting (str "a") 1 5); mkDiag (mkPos [] 4 1 5) (mkPos [] 4 1 5) (MNotExist (str "x"))], (mkDiag (mkPos [] 4 1 5) (mkPos [] 4 1 5) (MNotExist (str "x"))).
  split; [now apply good_by_ascii|]. split; [do 2 eexists; vm_compute; reflexivity|]. split; [right; left; reflexivity|]. vm_compute. reflexivity.
Qed.
