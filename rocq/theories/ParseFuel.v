(** More fuel never changes the result of a parse that had enough. *)
From Coq Require Import String.
From Verif Require Import Base Utf8 Token Strconv Ext Lexer Ast Env Diag Parser.
Open Scope string_scope.
Open Scope list_scope.
Open Scope Z_scope.

(** [below a b]: [b] is what [a] becomes with more fuel. *)
Definition below {A} (a b : res A) : Prop := a = NoFuel \/ a = b.

Lemma below_refl : forall {A} (a : res A), below a a.
Proof. right; reflexivity. Qed.

Lemma below_bind : forall {A B} (a b : res A) (f g : A -> res B),
  below a b -> (forall x, below (f x) (g x)) -> below (rbind a f) (rbind b g).
Proof.
  intros A B a b f g [-> | ->] H; [left; reflexivity|]. destruct b; simpl; auto using below_refl.
Qed.

Definition belowFn (f g : entryFn) : Prop := forall prec p, below (f prec p) (g prec p).

Ltac bstep :=
  match goal with
  | H : belowFn _ _ |- below (peCurr _ _) (peCurr _ _) => apply H
  | |- below (rbind _ _) (rbind _ _) => apply below_bind; [|intros]
  | |- below (match ?x with _ => _ end) _ => destruct x
  | |- below ?a ?a => apply below_refl
  | |- below (let '(_, _) := ?x in _) _ => destruct x
  end.
Ltac bsolve := repeat (intros; bstep).

Section Mono.
  Variable X : Ext.

  Lemma commentLoop_below : forall f g acc p, (f <= g)%nat -> below (commentLoop X f acc p) (commentLoop X g acc p).
  Proof.
    induction f as [|f IH]; intros [|g] acc p H; try lia.
    - apply below_refl.
    - simpl. destruct (teq (peekTok p) COMMENT); [left; reflexivity|apply below_refl].
    - simpl. destruct (teq (peekTok p) COMMENT); [|apply below_refl]. apply below_bind; [apply below_refl|].
      intros x. apply IH. lia.
  Qed.

  Lemma parseComment_below : forall f g p, (f <= g)%nat -> below (parseComment X f p) (parseComment X g p).
  Proof.
    intros f g p H. unfold parseComment. apply below_bind; [now apply commentLoop_below|]. bsolve.
  Qed.

  Lemma bracketLoop_below : forall pe pe' stop keep, belowFn pe pe' -> forall f g acc p, (f <= g)%nat ->
    below (bracketLoop X pe stop keep f acc p) (bracketLoop X pe' stop keep g acc p).
  Proof.
    intros pe pe' stop keep HP. induction f as [|f IH]; intros [|g] acc p H; try lia.
    - simpl. destruct (teq (curr p) stop); apply below_refl.
    - simpl. destruct (teq (curr p) stop); [apply below_refl|left; reflexivity].
    - simpl. destruct (teq (curr p) stop); [apply below_refl|]. apply below_bind; [apply HP|].
      intros [[e d] p1]. destruct d; [apply below_refl|]. apply below_bind; [apply below_refl|].
      intros p2. apply IH. lia.
  Qed.

  Lemma runLed_below : forall pe pe' k left p, belowFn pe pe' -> below (runLed X pe k left p) (runLed X pe' k left p).
  Proof.
    intros pe pe' k left p HP. destruct k; cbn [runLed].
    - unfold parseColon. destruct left; bsolve.
    - unfold parseTypeChoice. bsolve.
    - unfold parseComparatorOp. destruct (typeOf left) as [[]|]; bsolve.
    - unfold parseSizeOperator. destruct (typeOf left) as [[]|]; bsolve.
    - unfold parseRegexp. destruct (typeOf left) as [[]|]; bsolve.
    - unfold parseBits. bsolve.
    - unfold parseBound. destruct left; unfold parseLitBound, parseIdentBound; bsolve.
    - unfold parseOccurrence. bsolve.
    - apply below_refl.
  Qed.

  Lemma runNud_below : forall pe pe' f g n p, belowFn pe pe' -> (f <= g)%nat ->
    below (runNud X pe f n p) (runNud X pe' g n p).
  Proof.
    intros pe pe' f g n p HP HL. destruct n; cbn [runNud]; try apply below_refl.
    - unfold parseMap. bsolve. now apply bracketLoop_below.
    - unfold parseGroup. bsolve. now apply bracketLoop_below.
    - unfold parseArray. bsolve. now apply bracketLoop_below.
    - now apply parseComment_below.
    - unfold parseOptional. bsolve.
    - unfold parsePrefixOccurrence, parseOccurrence. bsolve.
    - unfold parsePrefixOccurrence, parseOccurrence. bsolve.
    - unfold parseUnwrap. bsolve.
    - unfold parseTag. bsolve.
    - unfold parseEnumeration. bsolve.
  Qed.

  Lemma ledLoop_below : forall pe pe' prec, belowFn pe pe' -> forall f g e p, (f <= g)%nat ->
    below (ledLoop X pe f prec e p) (ledLoop X pe' g prec e p).
  Proof.
    intros pe pe' prec HP. induction f as [|f IH]; intros [|g] e p H; try lia; simpl;
      (destruct (negb (teq (curr p) COMMA) && (prec <? precedence (peekTok p))); [|apply below_refl]);
      (destruct (ledFor (peekTok p)); [|apply below_refl]).
    - apply below_refl.
    - left; reflexivity.
    - apply below_bind; [apply below_refl|]. intros p1. apply below_bind; [now apply runLed_below|].
      intros [[e1 d] p2]. destruct d; [apply below_refl|]. apply IH. lia.
  Qed.

  Lemma parseEntry_below : forall f g, (f <= g)%nat -> belowFn (parseEntry X f) (parseEntry X g).
  Proof.
    induction f as [|f IH]; intros [|g] H prec p; try lia.
    - apply below_refl.
    - left; reflexivity.
    - simpl. apply below_bind.
      + unfold skipComments. destruct (teq (curr p) COMMENT); [|apply below_refl].
        apply below_bind; [apply parseComment_below; lia|]. bsolve.
      + intros p1. destruct (chooseNud p1); [|apply below_refl].
        apply below_bind; [apply runNud_below; [apply IH|]; lia|].
        intros [[e d] p2]. destruct d; [apply below_refl|]. apply ledLoop_below; [apply IH|]; lia.
  Qed.

  Lemma parseRule_below : forall f g p, (f <= g)%nat -> below (parseRule X f p) (parseRule X g p).
  Proof.
    intros f g p H. unfold parseRule. destruct (curr p); try apply below_refl.
    - now apply parseComment_below.
    - apply below_bind; [apply below_refl|]. intros p1. destruct (curr p1); try apply below_refl;
        (apply below_bind; [apply below_refl|]; intros p2; apply below_bind; [now apply parseEntry_below|]; bsolve).
  Qed.

  Lemma fileLoop_below : forall f g, (f <= g)%nat -> forall m n acc p, (m <= n)%nat ->
    below (fileLoop X f m acc p) (fileLoop X g n acc p).
  Proof.
    intros f g H. induction m as [|m IH]; intros [|n] acc p HL; try lia; simpl;
      (destruct (teq (curr p) EOF); [apply below_refl|]).
    - apply below_refl.
    - left; reflexivity.
    - apply below_bind; [now apply parseRule_below|]. intros [[e d] p1]. apply below_bind; [apply below_refl|].
      intros p2. apply IH. lia.
  Qed.

  Theorem parseFile_below : forall f g p, (f <= g)%nat -> below (parseFile X f p) (parseFile X g p).
  Proof.
    intros f g p H. unfold parseFile. destruct (errors (lx p)); [|apply below_refl].
    apply below_bind; [now apply fileLoop_below|]. intros [rules p1]. apply below_refl.
  Qed.

  Theorem parseSource_below : forall f g s e, (f <= g)%nat -> below (parseSource X f s e) (parseSource X g s e).
  Proof.
    intros f g s e H. unfold parseSource. apply below_bind; [apply below_refl|]. intros p. now apply parseFile_below.
  Qed.
End Mono.
