(** Token streams by computation. *)
From Coq Require Import String.
From Verif Require Import Base Utf8 Token Strconv Ext Lexer LexSpec LexSpec2 LexerProofs LexOne LexSeq LexHang Ast Env Diag Parser ParseSpec ParseStream ParseTwin.
Open Scope string_scope.
Open Scope list_scope.
Open Scope Z_scope.

(** A run of Scan calls up to the first EOF shows the whole stream. *)
Lemma str_scans : forall X ts eof l l', scans X (S (length ts)) l = Ok (ts ++ [eof], l') ->
  forallb (fun t => negb (teq (tTok t) EOF)) ts = true -> tTok eof = EOF ->
  forall ts' f, Str X l ts' f -> Str X l ts (FEof eof).
Proof.
  intros X ts eof. induction ts as [|t ts IH]; intros l l' HS HN HE ts' f HSt.
  - cbn [scans length app] in HS. destruct (scan X l) as [[t1 l1]| | |] eqn:E; try discriminate. cbn [rbind] in HS. inversion HS; subst.
    inversion HSt as [? t2 l2 ? ? S1 N1| ? S1|? t2 HE2 S1]; subst.
    + rewrite S1 in E. inversion E; subst. contradiction.
    + congruence.
    + pose proof (S1 1%nat) as (l2 & K). simpl in K. rewrite E in K. cbn [rbind] in K. inversion K; subst. exact HSt.
  - cbn [length] in HS. remember (S (length ts)) as m. cbn [scans] in HS.
    destruct (scan X l) as [[t1 l1]| | |] eqn:E; try discriminate. cbn [rbind] in HS.
    destruct (scans X m l1) as [[ts1 l2]| | |] eqn:E1; try discriminate. cbn [rbind] in HS. inversion HS; subst.
    simpl in HN. apply andb_true_iff in HN. destruct HN as [HN1 HN2]. assert (NE : tTok t <> EOF) by (intros K; rewrite K in HN1; discriminate).
    inversion HSt as [? t2 l3 ? ? S1 N1| ? S1|? t2 HE2 S1]; subst.
    + rewrite S1 in E. inversion E; subst. eapply Str_tok; eauto.
    + congruence.
    + pose proof (S1 1%nat) as (l3 & K). simpl in K. rewrite E in K. cbn [rbind] in K. inversion K; subst. contradiction.
Qed.

Theorem tokens_by_scans : forall X s ts eof l', decodable s -> scans X (S (length ts)) (newLexer s) = Ok (ts ++ [eof], l') ->
  forallb (fun t => negb (teq (tTok t) EOF)) ts = true -> tTok eof = EOF -> Str X (newLexer s) ts (FEof eof).
Proof.
  intros X s ts eof l' D HS HN HE. destruct (new_str X s D) as (ts' & f & k' & H & _). eapply str_scans; eauto.
Qed.

(** Equal streams cannot be told apart. *)
Lemma str_same : forall X ts f l l', Str X l ts f -> Str X l' ts f -> sameTokens X l l'.
Proof.
  intros X ts f. induction ts as [|t ts IH]; intros l l' H H' n.
  - inversion H; subst; inversion H'; subst.
    + destruct n; [reflexivity|]. unfold seen. cbn [scans].
      match goal with A : scan X l = Panic, B : scan X l' = Panic |- _ => rewrite A, B end. reflexivity.
    + match goal with A : forall n, exists l', scans X n l = _, B : forall n, exists l', scans X n _ = _ |- _ =>
        destruct (A n) as [? E1], (B n) as [? E2] end. unfold seen. rewrite E1, E2. reflexivity.
  - inversion H; subst. inversion H'; subst. destruct n; [reflexivity|]. unfold seen. cbn [scans].
    match goal with A : scan X l = Ok _, B : scan X l' = Ok _ |- _ => rewrite A, B end. cbn [rbind].
    match goal with A : Str X ?a ts f, B : Str X ?b ts f, K : scan X l = Ok (_, ?a) |- _ => specialize (IH _ _ A B n) end.
    unfold seen in IH.
    match goal with |- context [scans X n ?a] => match goal with |- context [scans X n ?b] => lazymatch a with b => fail | _ => idtac end;
      destruct (scans X n a) as [[? ?]| | |], (scans X n b) as [[? ?]| | |] end end; simpl in *; congruence.
Qed.
