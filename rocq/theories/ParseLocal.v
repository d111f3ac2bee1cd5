(** What a function of the parser returns depends on the tokens it scans only: with another
    lexer that gives the same tokens it returns the same. *)
From Coq Require Import String.
From Verif Require Import Base Utf8 Token Strconv Ext Lexer Ast Env Diag Parser ParseLayout.
Open Scope string_scope.
Open Scope list_scope.
Open Scope Z_scope.

(** Results that carry a parser, and the same result with another lexer in it. *)
Class Carrier (A : Type) := { st : A -> parser; put : A -> lexer -> A }.
#[export] Instance carry_parser : Carrier parser := {| st := fun p => p; put := fun p l => mkParser l (cur p) (pk p) (perrors p) (env p) (tasks p) |}.
#[export] Instance carry_pair {B} : Carrier (B * parser) := {| st := snd; put := fun a l => (fst a, put (snd a) l) |}.
#[export] Instance carry_sum {B C} : Carrier ((B * parser) + (C * parser)) :=
  {| st := fun a => match a with inl x => snd x | inr x => snd x end;
     put := fun a l => match a with inl x => inl (put x l) | inr x => inr (put x l) end |}.

Section Local.
Variable X : Ext.

(** [loc c k F]: [F l], run from the tokens [c] and [k] and the lexer [l], scans some tokens, the last
    of which are those of its result, and returns the same with any lexer that gives these. *)
Definition loc {A} `{Carrier A} (c k : tokInfo) (F : lexer -> res A) : Prop := forall l x, F l = Ok x ->
  exists n ts, scans X n l = Ok (ts, lx (st x)) /\ (exists pre, c :: k :: ts = pre ++ [cur (st x); pk (st x)]) /\ forall l2 l2', scans X n l2 = Ok (ts, l2') -> F l2 = Ok (put x l2').

Class Lawful (A : Type) `{Carrier A} : Prop := {
  put_id : forall x, put x (lx (st x)) = x;
  get_put : forall x l, lx (st (put x l)) = l;
  put_put : forall x l l', put (put x l) l' = put x l' }.
#[local] Instance law_parser : Lawful parser.
Proof. split; intros []; reflexivity. Qed.
#[local] Instance law_pair {B} : Lawful (B * parser).
Proof. split; intros [b []]; reflexivity. Qed.
#[local] Instance law_sum {B C} : Lawful ((B * parser) + (C * parser)).
Proof. split; intros [[b []]|[b []]]; reflexivity. Qed.

Lemma loc_bind : forall {A B} `{Lawful A} `{Carrier B} c k (F : lexer -> res A) (G : A -> res B),
  loc c k F -> (forall x, loc (cur (st x)) (pk (st x)) (fun l => G (put x l))) -> loc c k (fun l => rbind (F l) G).
Proof.
  intros A B CA LA CB c k F G HF HG l y E. destruct (F l) as [x| | |] eqn:EF; try discriminate E. cbn [rbind] in E.
  destruct (HF l x EF) as (n & ts & S1 & (pre & P1) & K1). rewrite <- (put_id x) in E. destruct (HG x (lx (st x)) y E) as (m & us & S2 & (pre2 & P2) & K2).
  exists (n + m)%nat, (ts ++ us). rewrite scans_app, S1. cbn [rbind]. rewrite S2. cbn [rbind]. split; auto. split.
  { exists (pre ++ pre2). rewrite <- app_assoc, <- P2. change (c :: k :: ts ++ us) with ((c :: k :: ts) ++ us). rewrite P1, <- app_assoc. reflexivity. }
  intros l2 l2' S. rewrite scans_app in S. destruct (scans X n l2) as [[ts' lm]| | |] eqn:E1; try discriminate S. cbn [rbind] in S.
  destruct (scans X m lm) as [[us' le]| | |] eqn:E2; try discriminate S. cbn [rbind] in S. injection S as ES <-.
  pose proof (scans_len _ _ _ _ _ E1) as L1. pose proof (scans_len _ _ _ _ _ S1) as L2.
  assert (Q : ts' = ts /\ us' = us).
  { assert (LL : length ts' = length ts) by congruence. revert LL ES. clear. revert ts. induction ts' as [|a ts' IH]; intros [|b ts] LL E; try discriminate LL; [auto|].
    cbn [app length] in *. injection LL as LL. injection E as -> E. destruct (IH _ LL E) as [-> ->]. auto. }
  destruct Q as [-> ->]. rewrite (K1 _ _ E1). cbn [rbind]. exact (K2 _ _ E2).
Qed.

Lemma loc_none : forall {A} `{Carrier A} c k (r : res A), (forall x, r <> Ok x) -> loc c k (fun _ => r).
Proof. intros A CA c k r H l x E. now apply H in E. Qed.

Notation pr l c k ds e tk := (mkParser l c k ds e tk).

Lemma pnext_loc : forall c k ds e tk, loc c k (fun l => pnext X (pr l c k ds e tk)).
Proof.
  intros c k ds e tk l x E. unfold pnext in *. cbn [lx pk perrors env tasks] in *. destruct (scan X l) as [[t l1]| | |] eqn:ES; try discriminate E. cbn [rbind] in E.
  injection E as <-. exists 1%nat, [t]. cbn [scans]. rewrite ES. split; auto. split; [exists [c]; reflexivity|]. intros l2 l2' E2. destruct (scan X l2) as [[t2 l3]| | |]; try discriminate E2.
  cbn [rbind] in *. injection E2 as -> ->. reflexivity.
Qed.

Definition locFn (pe : entryFn) : Prop := forall prec c k ds e tk, loc c k (fun l => pe prec (pr l c k ds e tk)).

Ltac flat := unfold parseInnerComment, peCurr; unfold curr, pos, currLit, peekTok, peekPos, peekLit, addTask, addDiag, setEnv;
  cbn [lx cur pk perrors env tasks fst snd].
Ltac open := let x := fresh "x" in intros x; cbn [put st carry_parser carry_pair carry_sum];
  repeat match goal with y : (_ * _)%type |- _ => destruct y | y : (_ + _)%type |- _ => destruct y | y : parser |- _ => destruct y end; cbn [fst snd lx cur pk perrors env tasks].
Ltac lret := let E0 := fresh "E" in let E2 := fresh "E" in intros ? ? E0; injection E0 as <-; exists 0%nat, []; cbn [scans st carry_parser carry_pair carry_sum snd fst lx]; split; [reflexivity|]; split; [exists []; reflexivity|];
  intros ? ? E2; injection E2 as <-; reflexivity.
Ltac lnone := apply loc_none; intros ? ?; discriminate.
Ltac lstep :=
  flat;
  match goal with
  | HP : locFn ?pe |- loc _ _ (fun l => rbind (?pe ?prec (pr l ?c ?k ?ds ?e ?tk)) _) => apply loc_bind; [apply HP|open]
  | HP : locFn ?pe |- loc _ _ (fun l => ?pe ?prec (pr l ?c ?k ?ds ?e ?tk)) => apply HP
  | |- loc _ _ (fun l => rbind (pnext X (pr l ?c ?k ?ds ?e ?tk)) _) => apply loc_bind; [apply pnext_loc|open]
  | |- loc _ _ (fun l => pnext X (pr l ?c ?k ?ds ?e ?tk)) => apply pnext_loc
  | |- loc _ _ (fun l => rbind ?a _) => let E := fresh "E" in destruct a eqn:E; cbn [rbind]; [|lnone|lnone|lnone]
  | |- loc _ _ (fun l => match ?x with _ => _ end) => let E := fresh "E" in destruct x eqn:E
  | |- loc _ _ (fun _ => Panic) => lnone
  | |- loc _ _ (fun _ => NoFuel) => lnone
  | |- loc _ _ (fun l => Ok _) => solve [lret]
  | |- loc _ _ (fun l => rbind (match ?x with _ => _ end) _) => let E := fresh "E" in destruct x eqn:E; cbn [rbind]
  | |- loc _ _ (fun l => rbind (Ok _) _) => cbn [rbind]
  end.
Ltac lsolve := repeat lstep.

Lemma commentLoop_loc : forall f acc c k ds e tk, loc c k (fun l => commentLoop X f acc (pr l c k ds e tk)).
Proof. induction f as [|f IH]; intros acc c k ds e tk; cbn [commentLoop]; lsolve. apply IH. Qed.

Lemma parseComment_loc : forall f c k ds e tk, loc c k (fun l => parseComment X f (pr l c k ds e tk)).
Proof. intros. unfold parseComment. flat. apply loc_bind; [apply commentLoop_loc|open]. lsolve. Qed.

Lemma entryTrailing_loc : forall c k ds e tk, loc c k (fun l => entryTrailing X (pr l c k ds e tk)).
Proof. intros. unfold entryTrailing. lsolve. Qed.

Lemma ruleTrailing_loc : forall c k ds e tk, loc c k (fun l => ruleTrailing X (pr l c k ds e tk)).
Proof. intros. unfold ruleTrailing. lsolve. Qed.

Lemma expectPeek_loc : forall t c k ds e tk, loc c k (fun l => expectPeek X t (pr l c k ds e tk)).
Proof. intros. unfold expectPeek. lsolve. Qed.

Lemma parseTagHead_loc : forall c k ds e tk, loc c k (fun l => parseTagHead X (pr l c k ds e tk)).
Proof. intros. unfold parseTagHead, parseFloatTag. lsolve. Qed.

Lemma occUpper_loc : forall c k ds e tk, loc c k (fun l => occUpper X (pr l c k ds e tk)).
Proof. intros. unfold occUpper, parseUintType, parseUintLiteral. lsolve. Qed.

Lemma parseOccurrence_loc : forall pe n c k ds e tk, locFn pe -> loc c k (fun l => parseOccurrence X pe n (pr l c k ds e tk)).
Proof.
  intros pe n c k ds e tk HP. unfold parseOccurrence, occLower. flat.
  destruct (match n with NUintLiteral _ => _ | _ => _ end) as [[u|d]| | |]; cbn [rbind]; try lnone; [|lret].
  apply loc_bind; [apply occUpper_loc|open]; lsolve.
Qed.

Lemma runLed_loc : forall pe kk left c k ds e tk, locFn pe -> loc c k (fun l => runLed X pe kk left (pr l c k ds e tk)).
Proof.
  intros pe kk left c k ds e tk HP. destruct kk; cbn [runLed]; try (apply parseOccurrence_loc; auto; fail).
  - unfold parseColon. flat. destruct left; lsolve; (apply loc_bind; [apply entryTrailing_loc|open]; lsolve).
  - unfold parseTypeChoice. lsolve.
  - unfold parseComparatorOp. flat. destruct (typeOf left) as [[]|]; lsolve.
  - unfold parseSizeOperator. flat. destruct (typeOf left) as [[]|]; lsolve.
  - unfold parseRegexp. flat. destruct (typeOf left) as [[]|]; lsolve.
  - unfold parseBits. lsolve.
  - unfold parseBound, parseLitBound, parseIdentBound. flat. destruct left; lsolve.
  - unfold parseComma. lsolve.
Qed.

Lemma bracketLoop_loc : forall pe stop keep, locFn pe -> forall f acc c k ds e tk, loc c k (fun l => bracketLoop X pe stop keep f acc (pr l c k ds e tk)).
Proof.
  intros pe stop keep HP. induction f as [|f IH]; intros acc c k ds e tk; cbn [bracketLoop]; lsolve. apply IH.
Qed.

Lemma runNud_loc : forall pe f n c k ds e tk, locFn pe -> loc c k (fun l => runNud X pe f n (pr l c k ds e tk)).
Proof.
  intros pe f n c k ds e tk HP. destruct n; cbn [runNud]; try (apply parseComment_loc; auto; fail);
    try (unfold parsePrefixOccurrence; flat; apply parseOccurrence_loc; auto; fail).
  1: unfold parseIdentifier; lsolve. 1: unfold parseNamedIdentifier; lsolve; destruct (z =? 36); lret. 1: lsolve. 1: unfold parseBooleanLiteral; lsolve. 1, 2: lsolve.
  1: unfold parseFloatType, parseFloatLiteral; lsolve. 1: unfold parseUintType, parseUintLiteral; lsolve. 1: unfold parseIntegerType, parseIntegerLiteral; lsolve.
  1, 2, 3, 4: lsolve.
  all: try (unfold parseMap, parseGroup, parseArray; flat; apply loc_bind; [apply pnext_loc|open]; flat; apply loc_bind; [apply bracketLoop_loc; auto|open]; lsolve; fail).
  - unfold parseOptional. lsolve.
  - unfold parseUnwrap. lsolve.
  - unfold parseTag. flat. apply loc_bind; [apply parseTagHead_loc|open]; lsolve. apply loc_bind; [apply expectPeek_loc|open]. lsolve.
  - unfold parseEnumeration. lsolve.
Qed.

Lemma ledLoop_loc : forall pe prec, locFn pe -> forall f n c k ds e tk, loc c k (fun l => ledLoop X pe f prec n (pr l c k ds e tk)).
Proof.
  intros pe prec HP. induction f as [|f IH]; intros n c k ds e tk; cbn [ledLoop]; lsolve. apply loc_bind; [apply runLed_loc; auto|open]. lsolve. apply IH.
Qed.

Lemma parseEntry_loc : forall f, locFn (parseEntry X f).
Proof.
  induction f as [|f IH]; intros prec c k ds e tk; cbn [parseEntry]; [lnone|]. apply loc_bind.
  - unfold skipComments. flat. destruct (teq (tTok c) COMMENT); [|lret]. apply loc_bind; [apply parseComment_loc|open]. lsolve.
  - open. unfold chooseNud. flat. lsolve; (apply loc_bind; [apply runNud_loc; auto|open]; lsolve; apply ledLoop_loc; auto).
Qed.

Lemma registerRule_loc : forall i n c k ds e tk, loc c k (fun l => registerRule i n (pr l c k ds e tk)).
Proof. intros. unfold registerRule. flat. destruct (add e (iName i) n) as [e' []]; lsolve. Qed.

(** An attempt at a rule. *)
Theorem parseRule_loc : forall f c k ds e tk, loc c k (fun l => parseRule X f (pr l c k ds e tk)).
Proof.
  intros f c k ds e tk. unfold parseRule. flat. destruct (tTok c); try (lsolve; fail); [apply parseComment_loc|].
  apply loc_bind; [apply pnext_loc|open]. flat. destruct (tTok cur); try (lsolve; fail);
    (apply loc_bind; [apply pnext_loc|open]; flat; apply loc_bind; [apply parseEntry_loc|open]; lstep; [lret|];
     apply loc_bind; [apply ruleTrailing_loc|open]; try lret).
  apply loc_bind; [apply registerRule_loc|open]. lret.
Qed.
End Local.
