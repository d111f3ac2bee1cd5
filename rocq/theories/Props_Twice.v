(** Property C110: calling ParseFile again. *)
From Coq Require Import String.
From Verif Require Import Base Utf8 Token Ext Strconv Lexer LexSpec LexSpec2 LexSpec3 LexerProofs LexWords LexSeq LexHang
  Ast Env Diag Parser ParseSpec ParseFacts ParseTop ParseSource ParseFrame ParseLayout Props_Lexer Props_LexFull Props_Parser Props_Append Props_Order.
Open Scope string_scope.
Open Scope list_scope.
Open Scope Z_scope.

(** ** Specification *)

(** The result of the last of [n] + 1 further calls of ParseFile. *)
Fixpoint again (X : Ext) (fuel n : nat) (p : parser) : res (fileResult * parser) :=
  match n with
  | O => parseFile X fuel p
  | S m => '(_, q) <- parseFile X fuel p;; again X fuel m q
  end.

(** nil for no diagnostics. *)
Definition given (l : list diag) : option (list diag) := match l with [] => None | _ => Some l end.

(** [l] several times. *)
Fixpoint times (n : nat) (l : list diag) : list diag := match n with O => [] | S m => l ++ times m l end.

(** Scanning [s] to its end records an error. *)
Definition badString (X : Ext) (s : bytes) : Prop := exists n ts l t, scans X n (newLexer s) = Ok (ts, l) /\ In t ts /\ tTok t = EOF /\ errors l <> [].

(** ** The parser's place in the tokens *)

Section place.
Variables (X : Ext) (s : bytes).

Definition On (p : parser) : Prop := exists n ts, scans X n (newLexer s) = Ok (ts ++ [cur p; pk p], lx p).

Definition stays (p q : parser) : Prop := On p -> On q.

Lemma stays_trans : forall p q r, stays p q -> stays q r -> stays p r.
Proof. unfold stays. auto. Qed.

Lemma stays_next : forall p q, pnext X p = Ok q -> stays p q.
Proof.
  intros p q H (n & ts & E). unfold pnext in H. destruct (scan X (lx p)) as [[t l]| | |] eqn:ES; cbn [rbind] in H; try discriminate. injection H as <-. unfold On. cbn [cur pk lx].
  exists (n + 1)%nat, (ts ++ [cur p]). rewrite ParseLayout.scans_app, E. cbn [rbind scans]. rewrite ES. cbn [rbind]. now rewrite <- !app_assoc.
Qed.

Lemma stays_task : forall p t, stays p (addTask p t).
Proof. intros p t H. exact H. Qed.

Lemma stays_refl : forall p, stays p p.
Proof. intros p H. exact H. Qed.

Lemma rule_stays : forall f p, On p -> ok (parseRule X f p) (fun a => On (snd a)).
Proof.
  intros f p H. pose proof (parseEntry_R X stays stays_trans stays_next stays_task f) as PE. unfold parseRule.
  assert (NX : forall q, On q -> ok (pnext X q) On) by (intros q HQ r E; now apply (stays_next q)).
  assert (EN : forall prec q, On q -> ok (parseEntry X f prec q) (fun a => On (snd a))) by (intros prec q HQ a E; now apply (PE prec q q (stays_refl q) a E)).
  assert (TR : forall q, On q -> ok (ruleTrailing X q) (fun a => On (snd a))) by (intros q HQ a E; now apply (ruleTrailing_R X stays stays_trans stays_next q q (stays_refl q) a E)).
  destruct (curr p); try (apply ok_ret; exact H).
  - intros a E. now apply (parseComment_R X stays stays_trans stays_next f p p (stays_refl p) a E).
  - apply ok_bind. eapply ok_mono; [exact (NX p H)|]. intros p1 H1. destruct (curr p1); try (apply ok_ret; exact H1).
    all: apply ok_bind; eapply ok_mono; [exact (NX p1 H1)|]; intros p2 H2; apply ok_bind; eapply ok_mono; [exact (EN _ p2 H2)|]; intros [[e d] p3] H3; destruct d; [apply ok_ret; exact H3|].
    all: apply ok_bind; eapply ok_mono; [exact (TR p3 H3)|]; intros [tc p4] H4; cbn [snd] in *; try (apply ok_ret; exact H4).
    apply ok_bind. unfold registerRule. destruct (add (env p4) _ e) as [e' dup]. destruct dup; [apply ok_bind; apply ok_any; intros s0|]; apply ok_ret; apply ok_ret; exact H4.
Qed.

Lemma loop_stays : forall rf f acc p, On p -> ok (fileLoop X rf f acc p) (fun a => On (snd a) /\ curr (snd a) = EOF).
Proof.
  intros rf. induction f as [|f IH]; intros acc p H; cbn [fileLoop]; destruct (teq (curr p) EOF) eqn:E; try (apply ok_ret; split; [exact H|now apply teq_true]); [intros ? ?; discriminate|].
  apply ok_bind. eapply ok_mono; [exact (rule_stays rf p H)|]. intros [[e d] p1] H1. cbn [snd] in H1. apply ok_bind.
  assert (H1' : On (handle p1 d)) by (destruct d; exact H1). intros a0 E0. apply IH. now apply (stays_next (handle p1 d)).
Qed.
End place.

Lemma ended : forall X fuel s e t ds p, parseSource X fuel s e = Ok ((Some t, ds), p) -> On X s p /\ curr p = EOF.
Proof.
  intros X fuel s e t ds p H. unfold parseSource in H. destruct (newParser X (newLexer s) e) as [p0| | |] eqn:EN; try discriminate. cbn [rbind] in H.
  assert (H0 : On X s p0).
  { clear H. unfold newParser, pnext in EN. cbn [lx pk perrors env tasks] in EN. destruct (scan X (newLexer s)) as [[t1 l1]| | |] eqn:E1; try discriminate. cbn [rbind lx pk perrors env tasks] in EN.
    destruct (scan X l1) as [[t2 l2]| | |] eqn:E2; try discriminate. injection EN as <-. exists 2%nat, []. cbn [scans app cur pk lx]. rewrite E1. cbn [rbind]. rewrite E2. reflexivity. }
  unfold parseFile in H. destruct (errors (lx p0)); [|discriminate]. destruct (fileLoop X fuel fuel [] p0) as [[rules p1]| | |] eqn:EF; try discriminate. injection H as _ _ <-.
  destruct (loop_stays X s fuel fuel [] p0 H0 _ EF) as [(n & ts & K1) K2]. cbn [snd] in *. destruct (runTasks_spec p1) as (_ & _ & _ & R1 & R2 & R3).
  split; [exists n, ts; now rewrite R1, R2, R3|]. unfold curr in *. now rewrite R2.
Qed.

Lemma errors_end : forall X s n ts l t n' ts' l' t', decodable s -> scans X n (newLexer s) = Ok (ts, l) -> In t ts -> tTok t = EOF ->
  scans X n' (newLexer s) = Ok (ts', l') -> In t' ts' -> tTok t' = EOF -> errors l' = errors l.
Proof.
  assert (W : forall X s n ts l t n' ts' l', decodable s -> scans X n (newLexer s) = Ok (ts, l) -> In t ts -> tTok t = EOF -> (n <= n')%nat -> scans X n' (newLexer s) = Ok (ts', l') -> errors l' = errors l).
  { intros X s n ts l t n' ts' l' [B D] H HI HE L H'. destruct (C05_eof_sticky X s n ts l t B H HI HE) as [_ K]. destruct (K (n' - n)%nat) as (l2 & K1 & K2 & _).
    replace n' with (n + (n' - n))%nat in H' by lia. rewrite ParseLayout.scans_app, H in H'. cbn [rbind] in H'. rewrite K1 in H'. cbn [rbind] in H'. congruence. }
  intros X s n ts l t n' ts' l' t' D H HI HE H' HI' HE'. destruct (le_ge_dec n n') as [L|L]; [|symmetry]; eapply W; eauto.
Qed.

(** The lexer's errors that the first call passed over. *)
Lemma passed : forall X fuel s e t ds p, decodable s -> parseSource X fuel s e = Ok ((Some t, ds), p) -> (badString X s <-> errors (lx p) <> []).
Proof.
  intros X fuel s e t ds p D H. destruct (ended _ _ _ _ _ _ _ H) as [(n & ts & E) C]. assert (I : In (cur p) (ts ++ [cur p; pk p])) by (apply in_or_app; right; now left).
  split; [intros (n' & ts' & l' & t' & E' & I' & C' & NE)|intros NE; exists n, (ts ++ [cur p; pk p]), (lx p), (cur p); auto].
  rewrite (errors_end X s n' ts' l' t' n _ (lx p) (cur p) D E' I' C' E I C). exact NE.
Qed.

Lemma collect_given : forall l, collect l = given l.
Proof. intros []; reflexivity. Qed.

Lemma times_snoc : forall n l, times n l ++ l = times (S n) l.
Proof. induction n as [|n IH]; intros l; [cbn; now rewrite app_nil_r|]. cbn [times] in *. rewrite <- app_assoc. now rewrite IH. Qed.

Lemma once : forall X f p, curr p = EOF -> errors (lx p) = [] -> parseFile X f p = Ok ((Some (NCDDL zeroPos []), given (perrors (runTasks p))), runTasks p).
Proof. intros X f p C E. unfold parseFile. rewrite E. destruct f; cbn [fileLoop]; rewrite C; cbn [teq rbind]; rewrite <- collect_given; reflexivity. Qed.

(** C110. ParseFile has returned a tree; it is called again, once or several times. If the source has a bad string anywhere,
    there is no tree and there are no diagnostics any more. Otherwise the tree is empty, and the diagnostics are those of
    the first call, followed by those of the deferred checks once more for every further call. *)
Theorem C110_again : forall X fuel s e t ds p, decodable s -> parseSource X fuel s e = Ok ((Some t, ds), p) ->
  (badString X s -> forall f n, again X f n p = Ok ((None, None), p)) /\
  (~ badString X s -> exists now later, ds = given (now ++ later) /\ Forall (fun d => ~ ofNames d) now /\ Forall late later /\
    forall f n, exists q, again X f n p = Ok ((Some (NCDDL zeroPos []), given (now ++ later ++ times (S n) later)), q) /\ env q = env p).
Proof.
  intros X fuel s e t ds p D H. pose proof (passed _ _ _ _ _ _ _ D H) as PA. destruct (ended _ _ _ _ _ _ _ H) as [_ C]. split.
  - intros B f. apply PA in B. assert (K : parseFile X f p = Ok ((None, None), p)) by (unfold parseFile; destruct (errors (lx p)); [congruence|reflexivity]).
    induction n as [|n IH]; cbn [again]; [exact K|]. rewrite K. cbn [rbind]. exact IH.
  - intros B. assert (E : errors (lx p) = []) by (destruct (errors (lx p)) as [|x y]; auto; exfalso; apply B, (proj2 PA); discriminate).
    destruct (order_parts _ _ _ _ _ _ _ D H) as (now & E1 & E2 & _ & K2 & _). set (later := failures (env p) (tasks p)) in *. exists now, later.
    split; [|split; [exact K2|split; [apply failures_late|]]].
    + assert (SH : ds = collect (perrors p)).
      { clear - H. unfold parseSource in H. destruct (newParser X (newLexer s) e) as [p0| | |]; try discriminate. cbn [rbind] in H. unfold parseFile in H. destruct (errors (lx p0)); [|discriminate].
        destruct (fileLoop X fuel fuel [] p0) as [[rules p1]| | |]; try discriminate. cbn [rbind] in H. injection H as _ <- <-. reflexivity. }
      rewrite SH, E1. apply collect_given.
    + intros f n. assert (G : forall n k q, perrors q = now ++ later ++ times k later -> env q = env p -> tasks q = tasks p -> lx q = lx p -> cur q = cur p ->
        exists r, again X f n q = Ok ((Some (NCDDL zeroPos []), given (now ++ later ++ times (k + S n) later)), r) /\ env r = env p).
      { clear n. induction n as [|n IH]; intros k q Q1 Q2 Q3 Q4 Q5; cbn [again]; rewrite (once X f q) by (unfold curr in *; congruence); destruct (runTasks_spec q) as (R1 & R2 & R3 & R4 & R5 & _); rewrite Q2, Q3 in R1; fold later in R1;
          rewrite Q1, <- !app_assoc, times_snoc in R1.
        - exists (runTasks q). rewrite R1, Nat.add_1_r. split; [reflexivity|congruence].
        - cbn [rbind]. destruct (IH (S k) (runTasks q)) as (r & IH1 & IH2); try congruence. exists r. rewrite IH1. replace (k + S (S n))%nat with (S k + S n)%nat by lia. split; auto. }
      apply (G n 0%nat p); auto. cbn [times]. now rewrite app_nil_r.
Qed.

(** ** Examples *)

(** A name that is not defined, and a rule defined twice. *)
Definition twice : bytes := str "a = x a = 1".
Definition onceOut : res (fileResult * parser) := Eval vm_compute in parse X0 twice.
Definition twiceOut : res (fileResult * parser) := Eval vm_compute in ('(_, p) <- onceOut;; again X0 1 1 p).

Lemma once_is : parse X0 twice = onceOut.
Proof. vm_compute. reflexivity. Qed.

Lemma twice_is : ('(_, p) <- parse X0 twice;; again X0 1 1 p) = twiceOut.
Proof. vm_compute. reflexivity. Qed.

(** A string without its end, in the third token. *)
Definition open3 : bytes := str "a = ""x" ++ [10].
Definition openOut : res (fileResult * parser) := Eval vm_compute in parse X0 open3.

Lemma open_is : parse X0 open3 = openOut.
Proof. vm_compute. reflexivity. Qed.

Lemma twice_fine : ~ badString X0 twice.
Proof.
  intros (n & ts & l & t & H & I & E & NE). apply NE. assert (H2 : exists ts2 l2 t2, scans X0 7 (newLexer twice) = Ok (ts2, l2) /\ In t2 ts2 /\ tTok t2 = EOF /\ errors l2 = []).
  { do 3 eexists. split; [vm_compute; reflexivity|]. split; [do 6 right; left; reflexivity|]. split; reflexivity. }
  destruct H2 as (ts2 & l2 & t2 & H2 & I2 & E2 & N2). rewrite <- N2. eapply errors_end; eauto. now apply good_by_ascii.
Qed.

Lemma open_bad : badString X0 open3.
Proof. exists 4%nat. do 3 eexists. split; [vm_compute; reflexivity|]. split; [do 3 right; left; reflexivity|]. split; [reflexivity|discriminate]. Qed.

Example C110_ex : decodable twice /\ ~ badString X0 twice /\ (exists t p, parse X0 twice = Ok ((Some t, Some [mkDiag (posAt twice 6) (posAt twice 6) (MExisting (str "a") 1 5); mkDiag (posAt twice 4) (posAt twice 4) (MNotExist (str "x"))]), p)) /\
  (exists d1 d2 q, ('(_, p) <- parse X0 twice;; again X0 1 1 p) = Ok ((Some (NCDDL zeroPos []), Some [d1; d2; d2; d2]), q) /\ dMsg d2 = MNotExist (str "x")).
Proof.
  split; [now apply good_by_ascii|]. split; [apply twice_fine|]. split; [do 2 eexists; rewrite once_is; reflexivity|]. do 3 eexists. rewrite twice_is. split; reflexivity.
Qed.

(** The first call says nothing of the bad string, the second one returns nothing. *)
Example C110_ex_open : decodable open3 /\ badString X0 open3 /\ exists t p, parse X0 open3 = Ok ((Some t, None), p) /\ parseFile X0 1 p = Ok ((None, None), p).
Proof. split; [now apply good_by_ascii|]. split; [apply open_bad|]. do 2 eexists. rewrite open_is. split; [reflexivity|]. vm_compute. reflexivity. Qed.
