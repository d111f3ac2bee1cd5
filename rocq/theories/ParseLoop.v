(** The operator loop and [parseEntry]: the recursion that ties ParseSound.v together. *)
From Coq Require Import String.
From Verif Require Import Base Token Strconv Ext Lexer Ast Env Diag Parser ParseSpec ParseStream ParseFacts ParseSound.
Open Scope string_scope.
Open Scope list_scope.
Open Scope Z_scope.

Lemma lastOf_app2 : forall b a t, lastOf (a ++ b) t = lastOf b (lastOf a t).
Proof.
  intros b a. revert b. induction a as [|x a IH]; intros b t; [reflexivity|].
  simpl app. rewrite !lastOf_cons. apply IH.
Qed.

(** * The operator loop *)

Lemma infix_led_iff : forall t, infixTok t = true <-> (0 <? precedence t) = true /\ ledFor t <> None.
Proof.
  intros t. destruct t; cbv; split; intros H; try discriminate H; try (destruct H as [H H']; (discriminate H || (exfalso; now apply H')));
    try (split; [reflexivity|discriminate]); reflexivity.
Qed.

(** Where an entry is over the loop stops, whatever the precedence. *)
Lemma ledLoop_over : forall X pe fuel prec e p, 0 <= prec -> over (curr p) (peekTok p) -> ledLoop X pe fuel prec e p = Ok (e, None, p).
Proof.
  intros X pe fuel prec e p HPr HO.
  assert (E : negb (teq (curr p) COMMA) && (prec <? precedence (peekTok p)) = true -> ledFor (peekTok p) = None).
  { intros HC. apply andb_true_iff in HC as [H1 H2]. apply negb_true_iff, teq_false in H1.
    destruct HO as [HO|HO]; [congruence|].
    destruct (ledFor (peekTok p)) eqn:EL; auto. exfalso.
    assert (infixTok (peekTok p) = true) by (apply infix_led_iff; split; [lia|congruence]). congruence. }
  destruct fuel; simpl; destruct (negb (teq (curr p) COMMA) && (prec <? precedence (peekTok p))); auto; now rewrite E.
Qed.

Lemma ledLoop_post : forall X N pe (P : position -> Prop) f, PE X N pe ->
  forall fuel l p t ts, Toks X p (t :: ts) f -> (length ts <= N)%nat -> (length ts < fuel)%nat -> posOk P (t :: ts) f ->
  real l -> startOk P l ->
  wp (ledLoop X pe fuel 0 l p) (fun r => let '(n, d, p') := r in
    exists ts' tk, Toks X p' ts' f /\ suf ts' (t :: ts) /\
    env p' = env p /\ perrors p' = perrors p /\ tasks p' = tasks p ++ tk /\ Forall (taskOk P) tk /\
    match d with
    | Some x => P (dStart x)
    | None => exists u rest, ts = u ++ rest /\ ts' = lastOf u t :: rest /\ Tail X t l u (pk p') n tk
    end).
Proof.
  intros X N pe P f HPE. induction fuel as [|fuel IH]; intros l p t ts HT HN HF HP HR HS; [lia|].
  pose proof (toks_cur _ _ _ _ _ HT) as HC.
  assert (HStop : over (curr p) (peekTok p) -> wp (Ok (l, None, p)) (fun r => let '(n, d, p') := r in
    exists ts' tk, Toks X p' ts' f /\ suf ts' (t :: ts) /\
    env p' = env p /\ perrors p' = perrors p /\ tasks p' = tasks p ++ tk /\ Forall (taskOk P) tk /\
    match d with
    | Some x => P (dStart x)
    | None => exists u rest, ts = u ++ rest /\ ts' = lastOf u t :: rest /\ Tail X t l u (pk p') n tk
    end)).
  { intros HO. cbn [wp]. exists (t :: ts), []. rewrite app_nil_r. split_all; auto; [apply suf_refl|].
    exists [], ts. split_all; auto. constructor. unfold curr, peekTok in HO. rewrite HC in HO. exact HO. }
  simpl ledLoop. destruct (negb (teq (curr p) COMMA) && (0 <? precedence (peekTok p))) eqn:EC.
  - apply andb_true_iff in EC as [E1 E2]. apply negb_true_iff, teq_false in E1.
    destruct (ledFor (peekTok p)) as [k|] eqn:EL.
    + assert (HI : infixTok (peekTok p) = true) by (apply infix_led_iff; split; congruence).
      destruct (toks_pk_cons _ _ _ _ _ HT) as [ts2 ER]; [intros EE; rewrite EE in HI; discriminate|].
      remember (pk p) as op eqn:Eop. subst ts. wnext HT p1 T1 S1. unsame.
      assert (HP1 : posOk P (op :: ts2) f) by (eapply posOk_suf; [|eauto]; apply suf_cons, suf_refl).
      apply wp_bind. simpl in HN, HF.
      eapply wp_mono; [eapply (runLed_post X N pe P p1 op ts2 f l k); eauto; try lia; unfold peekTok in EL; congruence|].
      intros [[m d] p2] (ts' & tk & K1 & K2 & K3 & K4 & K5 & K6 & K7).
      destruct d as [d|].
      * cbn [wp]. exists ts', tk. split_all; auto; try congruence. now apply suf_cons.
      * destruct K7 as (t1 & u & rest & E3 & -> & KR & KS & KT). inversion E3; subst t1 ts2.
        rewrite app_length in *.
        eapply wp_mono; [apply (IH m p2 (lastOf u op) rest K1); try lia; auto; eapply posOk_suf; eauto|].
        intros [[m' d'] p3] (ts'' & tk' & J1 & J2 & J3 & J4 & J5 & J6 & J7).
        exists ts'', (tk ++ tk'). split; auto. split; [eapply suf_trans; [eauto|]; apply suf_cons; auto|].
        split; [congruence|]. split; [congruence|]. split; [rewrite J5, K5, app_assoc; congruence|].
        split; [apply Forall_app; auto|]. destruct d' as [d'|]; auto.
        destruct J7 as (u2 & rest2 & -> & -> & HTail). exists ((op :: u) ++ u2), rest2.
        split; [now rewrite <- app_assoc|]. split.
        { f_equal. rewrite lastOf_app2, lastOf_cons. reflexivity. }
        apply (KT op u eq_refl t u2 (pk p3)); auto.
        { unfold curr in E1. rewrite HC in E1. exact E1. }
        { rewrite (toks_pk _ _ _ _ _ K1). unfold nextOf. destruct u2; auto.
          simpl. rewrite (toks_pk _ _ _ _ _ J1). reflexivity. }
    + apply HStop. right. destruct (infixTok (peekTok p)) eqn:EI; auto. apply infix_led_iff in EI. tauto.
  - apply HStop. apply andb_false_iff in EC as [E1|E1].
    + left. apply negb_false_iff, teq_true in E1; auto.
    + right. destruct (infixTok (peekTok p)) eqn:EI; auto. apply infix_led_iff in EI. destruct EI; congruence.
Qed.

(** * Comments before an entry *)

Lemma commentLoop_post : forall X f fuel acc p t ts, Toks X p (t :: ts) f -> (length ts < fuel)%nat ->
  wp (commentLoop X fuel acc p) (fun r => let '(l, p') := r in
    exists cms rest, ts = cms ++ rest /\ Forall commentTok cms /\ Toks X p' (lastOf cms t :: rest) f /\ same p' p /\
      peekTok p' <> COMMENT /\ l = acc ++ map commentOf cms).
Proof.
  intros X f. induction fuel as [|fuel IH]; intros acc p t ts HT HF; [lia|].
  simpl commentLoop. destruct (teq (peekTok p) COMMENT) eqn:E.
  - apply teq_true in E. destruct (toks_pk_cons _ _ _ _ _ HT) as [ts2 ER]; [congruence|].
    remember (pk p) as c eqn:Ec. subst ts. wnext HT p1 T1 S1. simpl in HF.
    eapply wp_mono; [apply (IH _ p1 c ts2 T1); lia|].
    intros [l p'] (cms & rest & -> & H1 & H2 & H3 & H4 & ->). unsame.
    exists (c :: cms), rest. split; auto. split; [constructor; auto; unfold commentTok; unfold peekTok in E; congruence|].
    split; [rewrite lastOf_cons; auto|]. split; [repeat split; congruence|]. split; auto.
    simpl. rewrite <- app_assoc. simpl. unfold parseInnerComment, pos, currLit.
    now rewrite (toks_cur _ _ _ _ _ T1).
  - apply teq_false in E. cbn [wp]. exists [], ts. simpl. rewrite app_nil_r. split_all; auto. repeat split; auto.
Qed.

Lemma skip_post : forall X f fuel p ts, Toks X p ts f -> (length ts <= fuel)%nat ->
  wp (skipComments X fuel p) (fun p' => exists cms ts', ts = cms ++ ts' /\ Forall commentTok cms /\
     Toks X p' ts' f /\ same p' p /\ curr p' <> COMMENT).
Proof.
  intros X f fuel p ts HT HF. unfold skipComments. destruct (teq (curr p) COMMENT) eqn:E.
  - apply teq_true in E. destruct (toks_cons _ _ _ _ HT) as [ts2 ER]; [congruence|].
    remember (cur p) as c eqn:Ec. subst ts. unfold parseComment. apply wp_bind, wp_bind. simpl in HF.
    eapply wp_mono; [eapply commentLoop_post; eauto; lia|].
    intros [l p1] (cms & rest & -> & H1 & H2 & H3 & H4 & ->).
    assert (HN : wp (pnext X p1) (fun p' => exists cms0 ts', c :: cms ++ rest = cms0 ++ ts' /\ Forall commentTok cms0 /\
       Toks X p' ts' f /\ same p' p /\ curr p' <> COMMENT)).
    { eapply wp_pnext; eauto. intros p2 T2 S2. simpl in T2. exists (c :: cms), rest. unsame.
      split; auto. split; [constructor; auto; unfold commentTok, curr in *; congruence|]. split; auto.
      split; [repeat split; congruence|]. intros E2. apply H4. unfold peekTok. rewrite (tk_pk _ _ _ _ H2).
      unfold curr in E2. rewrite (tk_cur _ _ _ _ T2) in E2. simpl. destruct rest; exact E2. }
    cbn [app]. destruct (map commentOf cms) as [|x xs]; cbn [wp]; exact HN.
  - apply teq_false in E. cbn [wp]. exists [], ts. split_all; auto. repeat split; auto.
Qed.

(** * Entries *)

Theorem parseEntry_post : forall X (P : position -> Prop) f fuel prec p ts, Toks X p ts f -> (length ts < fuel)%nat -> posOk P ts f ->
  prec = 0 \/ prec = precedence (curr p) ->
  wp (parseEntry X fuel prec p) (Post X P (Entry X) p ts f).
Proof.
  intros X P f fuel. revert P f. induction fuel as [|fuel IH]; intros P f prec p ts HT HF HP HPr; [lia|].
  assert (HPE : PE X fuel (parseEntry X fuel)).
  { intros P' p' ts' f' K1 K2 K3. apply IH; auto. }
  simpl parseEntry. apply wp_bind. eapply wp_mono; [eapply skip_post; eauto; lia|].
  intros p1 (cms & ts1 & -> & HCm & T1 & S1 & NC). unsame.
  assert (HP1 : posOk P ts1 f) by (eapply posOk_suf; [|eauto]; apply suf_app).
  assert (HL1 : (length ts1 < S fuel)%nat) by (rewrite app_length in HF; lia).
  destruct (chooseNud p1) as [k|] eqn:EK.
  - assert (NE : curr p1 <> EOF) by (intros E; unfold chooseNud in EK; rewrite E in EK; discriminate).
    destruct (toks_cons _ _ _ _ T1 NE) as [ts2 E2]. remember (cur p1) as t0. subst ts1. simpl in HL1.
    apply wp_bind. eapply wp_mono; [eapply runNud_post; eauto; try lia; unfold curr in *; congruence|].
    intros [[n d] p2] (ts' & tk & K1 & K2 & K3 & K4 & K5 & K6 & K7). destruct d as [d|].
    + cbn [wp]. eapply post_err with (tk := tk); eauto; try congruence. eapply suf_trans; eauto. apply suf_app.
    + destruct K7 as (t & u & rest & E3 & -> & HNud). inversion E3; subst t ts2.
      pose proof (toks_cur _ _ _ _ _ K1) as HC2.
      assert (HLL : ledLoop X (parseEntry X fuel) fuel prec n p2 = ledLoop X (parseEntry X fuel) fuel 0 n p2).
      { destruct (Z.eq_dec prec 0) as [->|NZ]; auto.
        destruct (Nud_over _ _ _ _ _ _ HNud) as (N1 & N2).
        assert (cms = []) as ->.
        { destruct HPr as [|HPr]; [congruence|]. destruct cms as [|c cms]; auto. inversion HCm; subst.
          unfold curr in NZ. simpl in HT. rewrite (toks_cur _ _ _ _ _ HT) in NZ. unfold commentTok in *.
          match goal with H : tTok c = COMMENT |- _ => rewrite H in NZ end. exfalso; apply NZ; reflexivity. }
        assert (HCp : cur p = t0) by (simpl in HT; eapply toks_cur; eauto).
        destruct HPr as [|HPr]; [congruence|]. unfold curr in HPr. rewrite HCp in HPr.
        destruct N2 as [N2|N2]; [congruence|].
        assert (HO : over (curr p2) (peekTok p2)) by (unfold curr, peekTok; rewrite HC2; exact N2).
        rewrite !ledLoop_over; auto; try lia. rewrite HPr. clear. destruct (tTok t0); cbv; discriminate. }
      rewrite HLL.
      assert (HSu : startOk P n).
      { eapply (proj1 (proj2 (grammar_start X P))); eauto. destruct HP1 as [F _]. rewrite E3 in F. apply Forall_app in F; tauto. }
      assert (HL2 : (length rest <= length (u ++ rest))%nat) by (rewrite app_length; lia).
      eapply wp_mono; [eapply (ledLoop_post X fuel _ P f HPE fuel n p2 (lastOf u t0) rest K1); try lia; auto|].
      { eapply posOk_suf; eauto. }
      { eapply Nud_real; eauto. }
      intros [[m d] p3] (ts'' & tk' & J1 & J2 & J3 & J4 & J5 & J6 & J7).
      destruct d as [d|].
      * eapply post_err with (tk := tk ++ tk'); eauto; try congruence.
        -- eapply suf_trans; [eauto|]. eapply suf_trans; [eauto|]. apply suf_app.
        -- rewrite J5, K5, app_assoc. congruence.
        -- apply Forall_app; auto.
      * destruct J7 as (u2 & rest2 & -> & -> & HTail).
        exists (lastOf u2 (lastOf u t0) :: rest2), (tk ++ tk'). split; auto.
        assert (HE : Entry X (cms ++ (t0 :: u) ++ u2) (pk p3) m (tk ++ tk')).
        { econstructor; eauto. rewrite (toks_pk _ _ _ _ _ K1) in HNud. unfold nextOf. destruct u2; auto.
          simpl in *. rewrite (toks_pk _ _ _ _ _ J1). exact HNud. }
        split; [eapply suf_trans; [eauto|]; eapply suf_trans; [eauto|]; apply suf_app|].
        split; [congruence|]. split; [congruence|]. split; [rewrite J5, K5, app_assoc; congruence|].
        split; [apply Forall_app; auto|].
        assert (HX : exists t u', cms ++ (t0 :: u) ++ u2 = t :: u' /\ lastOf u' t = lastOf u2 (lastOf u t0)).
        { destruct cms as [|c cms]; simpl.
          - exists t0, (u ++ u2). split; auto. now rewrite lastOf_app2.
          - exists c, (cms ++ t0 :: u ++ u2). split; auto. rewrite lastOf_app2, lastOf_cons, lastOf_app2. reflexivity. }
        destruct HX as (t & u' & EX & EL). exists t, u', rest2. rewrite <- EX, EL.
        split; [rewrite <- !app_assoc; reflexivity|]. split; auto.
  - cbn [wp]. eapply post_err0; eauto; [repeat split; congruence|apply suf_app|].
    cbn [dStart errorUnexpectedPrefix err]. eapply posOk_cur; eauto.
Qed.

Lemma parseEntry_PE : forall X fuel, PE X fuel (parseEntry X fuel).
Proof. intros X fuel P p ts f H1 H2 H3. apply parseEntry_post; auto. Qed.
