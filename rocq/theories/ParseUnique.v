(** The grammar of ParseSpec.v is unambiguous on the token streams of sources. *)
From Coq Require Import String.
From Verif Require Import Base Utf8 Token Ext Strconv Lexer Ast Env Diag
  Parser ParseSpec ParseStream ParseFacts ParseSound ParseLoop ParseTop ParseComplete ParseFileC.
Open Scope string_scope.
Open Scope list_scope.
Open Scope Z_scope.

Lemma toks_fun : forall X p ts ts' eof, Toks X p ts (FEof eof) -> Toks X p ts' (FEof eof) -> ts = ts'.
Proof.
  intros X p ts ts' eof [A1 A2 A3 _ A5 A6] [B1 B2 B3 _ B5 _].
  assert (HE : tTok eof = EOF) by (apply A6; discriminate).
  destruct (str_fun _ _ _ _ A3 _ _ B3) as [E3 _]. cbn [eofOf] in *.
  rewrite A1 in B1. rewrite A2 in B2.
  destruct ts as [|a ts], ts' as [|b ts']; cbn [nth] in *; auto.
  - exfalso. inversion B5; subst. congruence.
  - exfalso. inversion A5; subst. congruence.
  - subst b. f_equal. inversion A5; inversion B5; subst.
    destruct ts as [|a2 ts], ts' as [|b2 ts']; cbn [nth] in *; auto.
    + exfalso. match goal with H : Forall _ (_ :: _) |- _ => inversion H; subst; congruence end.
    + exfalso. match goal with H : Forall _ (_ :: _) |- _ => inversion H; subst; congruence end.
    + cbn [skipn] in E3. congruence.
Qed.

Lemma toks_suffix : forall X a b p eof, Toks X p (a ++ b) (FEof eof) -> exists p', Toks X p' b (FEof eof) /\ same p' p.
Proof.
  intros X a. induction a as [|t a IH]; intros b p eof H; [exists p; split; auto; apply same_refl|].
  destruct (pnext_eof _ _ _ _ H) as (p1 & _ & T1 & S1). cbn [tl app] in T1.
  destruct (IH _ _ _ T1) as (p' & T & S). exists p'. split; auto. eapply same_trans; eauto.
Qed.

(** Streams that some parser state stands on. *)
Definition Stream (X : Ext) (ts : list tokInfo) (eof : tokInfo) : Prop := exists p, Toks X p ts (FEof eof).

Lemma stream_suffix : forall X a b eof, Stream X (a ++ b) eof -> Stream X b eof.
Proof. intros X a b eof [p H]. destruct (toks_suffix _ _ _ _ _ H) as (p' & T & _). exists p'; auto. Qed.

Lemma source_stream : forall X l ts eof, Str X l ts (FEof eof) -> Stream X ts eof.
Proof.
  intros X l ts eof H. destruct (newParser_toks X l [] ts _ H) as [(_ & E & _)|(p & l1 & t1 & t2 & _ & HT & _)]; [discriminate|].
  exists p; auto.
Qed.

Theorem entry_unique : forall X eof u rest n tk u' rest' n' tk', Stream X (u ++ rest) eof -> u ++ rest = u' ++ rest' ->
  Entry X u (nextOf rest eof) n tk -> Entry X u' (nextOf rest' eof) n' tk' ->
  u = u' /\ rest = rest' /\ n = n' /\ tk = tk'.
Proof.
  intros X eof u rest n tk u' rest' n' tk' [p HT] E H H'.
  destruct u as [|t u]; [exfalso; eapply (Entry_ne _ _ _ _ _ H); eauto|].
  destruct u' as [|t' u']; [exfalso; eapply (Entry_ne _ _ _ _ _ H'); eauto|].
  destruct (proj1 (complete X eof) _ _ _ _ H (S (length ((t :: u) ++ rest))) 0 p rest HT eq_refl ltac:(lia) (or_introl eq_refl) t u eq_refl)
    as (p1 & A1 & A2 & _ & _ & A5).
  rewrite E in HT.
  destruct (proj1 (complete X eof) _ _ _ _ H' (S (length ((t' :: u') ++ rest'))) 0 p rest' HT eq_refl ltac:(lia) (or_introl eq_refl) t' u' eq_refl)
    as (p2 & B1 & B2 & _ & _ & B5).
  rewrite <- E in B1. rewrite A1 in B1. inversion B1; subst p2 n'.
  pose proof (toks_fun _ _ _ _ _ A2 B2) as ER. inversion ER as [[EL ER']]. subst rest'.
  apply app_inv_tail in E. rewrite E. split; auto. split; auto. split; auto.
  apply app_inv_head with (tasks p). congruence.
Qed.

Lemma comments_unique : forall a b ts ts' (eof : tokInfo), Forall commentTok a -> Forall commentTok b ->
  tTok (nextOf ts eof) <> COMMENT -> tTok (nextOf ts' eof) <> COMMENT -> a ++ ts = b ++ ts' -> a = b /\ ts = ts'.
Proof.
  induction a as [|x a IH]; intros b ts ts' eof HA HB H1 H2 E.
  - destruct b as [|y b]; [auto|]. exfalso. simpl in E. subst ts. apply H1. inversion HB; auto.
  - destruct b as [|y b]; simpl in E.
    + exfalso. subst ts'. apply H2. inversion HA; auto.
    + inversion E; subst. inversion HA; inversion HB; subst.
      destruct (IH b ts ts' eof) as [-> ->]; auto.
Qed.

Lemma file_inv : forall X ts eof rules tk df, File X ts eof rules tk df ->
  (ts = [] /\ rules = [] /\ tk = [] /\ df = []) \/
  (exists c cms ts' rules', ts = (c :: cms) ++ ts' /\ Forall commentTok (c :: cms) /\ tTok (nextOf ts' eof) <> COMMENT /\
     File X ts' eof rules' tk df /\ rules = commentNode (c :: cms) :: rules') \/
  (exists p w a t e ts' v rules' tk1 tk2 df', ts = mkTok IDENT p w :: a :: (t :: e) ++ ts' /\ assignTok (tTok a) /\
     Entry X (t :: e) (nextOf ts' eof) v tk1 /\ ~ trailing (lastOf e t) (nextOf ts' eof) /\ File X ts' eof rules' tk2 df' /\
     rules = NRule zeroPos (mkIdent p w) v None :: rules' /\ tk = tk1 ++ tk2 /\ df = defOf (tTok a) w v ++ df') \/
  (exists p w a t e c sw ts' v rules' tk1 tk2 df', ts = mkTok IDENT p w :: a :: (t :: e) ++ c :: sw ++ ts' /\ assignTok (tTok a) /\
     Entry X (t :: e) c v tk1 /\ trailing (lastOf e t) c /\ (length sw = 1%nat \/ (sw = [] /\ ts' = [])) /\
     File X ts' eof rules' tk2 df' /\
     rules = NRule zeroPos (mkIdent p w) v (Some (commentOf c)) :: rules' /\ tk = tk1 ++ tk2 /\ df = defOf (tTok a) w v ++ df').
Proof.
  intros X ts eof rules tk df H.
  destruct H as [eof|c cms ts eof rules tk defs HC HN HF|p w a t e ts eof v rules tk tk' defs HA HE HT HF
    |p w a t e c sw ts eof v rules tk tk' defs HA HE HT HS HF].
  - left; auto.
  - right; left. exists c, cms, ts, rules. auto 10.
  - right; right; left. exists p, w, a, t, e, ts, v, rules, tk, tk', defs. auto 10.
  - right; right; right. exists p, w, a, t, e, c, sw, ts, v, rules, tk, tk', defs. auto 12.
Qed.

Theorem file_unique : forall X ts eof rules tk df, File X ts eof rules tk df -> Stream X ts eof ->
  forall rules' tk' df', File X ts eof rules' tk' df' -> rules = rules' /\ tk = tk' /\ df = df'.
Proof.
  intros X ts eof rules tk df H.
  induction H as [eof|c cms ts eof rules tk defs HC HN HF IH|p w a t e ts eof v rules tk tk' defs HA HE HT HF IH
    |p w a t e c sw ts eof v rules tk tk' defs HA HE HT HS HF IH]; intros HSt rules' tk2 df' H'.
  - inversion H'; subst; auto.
  - destruct (file_inv _ _ _ _ _ _ H') as [(E1 & E1b)|[(c2 & cms2 & ts2 & rules2 & E1 & HC2 & HN2 & HF2 & ->)|[(p2 & w2 & a2 & t2 & e2 & ts2 & v2 & rules2 & tk3 & tk4 & df2 & E1 & HA2 & HE2 & HT2 & HF2 & -> & -> & ->)|(p2 & w2 & a2 & t2 & e2 & c2 & sw2 & ts2 & v2 & rules2 & tk3 & tk4 & df2 & E1 & HA2 & HE2 & HT2 & HS2 & HF2 & -> & -> & ->)]]]; [discriminate| | |].
    + destruct (comments_unique _ _ _ _ _ HC HC2 HN HN2 E1) as [E2 <-]. rewrite E2.
      destruct (IH (stream_suffix _ _ _ _ HSt) _ _ _ HF2) as (-> & -> & ->). auto.
    + exfalso. simpl in E1. injection E1 as -> _. inversion HC as [|? ? K _]. discriminate K.
    + exfalso. simpl in E1. injection E1 as -> _. inversion HC as [|? ? K _]. discriminate K.
  - destruct (file_inv _ _ _ _ _ _ H') as [(E1 & E1b)|[(c2 & cms2 & ts2 & rules2 & E1 & HC2 & HN2 & HF2 & ->)|[(p2 & w2 & a2 & t2 & e2 & ts2 & v2 & rules2 & tk3 & tk4 & df2 & E1 & HA2 & HE2 & HT2 & HF2 & -> & -> & ->)|(p2 & w2 & a2 & t2 & e2 & c2 & sw2 & ts2 & v2 & rules2 & tk3 & tk4 & df2 & E1 & HA2 & HE2 & HT2 & HS2 & HF2 & -> & -> & ->)]]]; [discriminate| | |].
    + exfalso. simpl in E1. injection E1 as <- _. inversion HC2 as [|? ? K _]. discriminate K.
    + assert (HSt2 : Stream X ((t :: e) ++ ts) eof) by (apply (stream_suffix X [mkTok IDENT p w; a]); exact HSt).
      assert (E2 : (t :: e) ++ ts = (t2 :: e2) ++ ts2) by exact (f_equal (skipn 2) E1).
      assert (E0 : p2 = p /\ w2 = w /\ a2 = a) by (injection E1; auto). destruct E0 as (-> & -> & ->).
      destruct (entry_unique _ _ _ _ _ _ _ _ _ _ HSt2 E2 HE HE2) as (E3 & -> & -> & ->).
      destruct (IH (stream_suffix _ _ _ _ HSt2) _ _ _ HF2) as (-> & -> & ->).
      inversion E3; subst. auto.
    + exfalso. assert (HSt2 : Stream X ((t :: e) ++ ts) eof) by (apply (stream_suffix X [mkTok IDENT p w; a]); exact HSt).
      assert (E2 : (t :: e) ++ ts = (t2 :: e2) ++ c2 :: sw2 ++ ts2) by exact (f_equal (skipn 2) E1).
      assert (E0 : p2 = p /\ w2 = w /\ a2 = a) by (injection E1; auto). destruct E0 as (-> & -> & ->).
      destruct (entry_unique _ _ _ _ _ _ _ _ _ _ HSt2 E2 HE HE2) as (E3 & -> & _). inversion E3; subst. contradiction.
  - destruct (file_inv _ _ _ _ _ _ H') as [(E1 & E1b)|[(c2 & cms2 & ts2 & rules2 & E1 & HC2 & HN2 & HF2 & ->)|[(p2 & w2 & a2 & t2 & e2 & ts2 & v2 & rules2 & tk3 & tk4 & df2 & E1 & HA2 & HE2 & HT2 & HF2 & -> & -> & ->)|(p2 & w2 & a2 & t2 & e2 & c2 & sw2 & ts2 & v2 & rules2 & tk3 & tk4 & df2 & E1 & HA2 & HE2 & HT2 & HS2 & HF2 & -> & -> & ->)]]]; [discriminate| | |].
    + exfalso. simpl in E1. injection E1 as <- _. inversion HC2 as [|? ? K _]. discriminate K.
    + exfalso. assert (HSt2 : Stream X ((t :: e) ++ c :: sw ++ ts) eof) by (apply (stream_suffix X [mkTok IDENT p w; a]); exact HSt).
      assert (E2 : (t :: e) ++ c :: sw ++ ts = (t2 :: e2) ++ ts2) by exact (f_equal (skipn 2) E1).
      assert (E0 : p2 = p /\ w2 = w /\ a2 = a) by (injection E1; auto). destruct E0 as (-> & -> & ->).
      assert (HE' : Entry X (t :: e) (nextOf (c :: sw ++ ts) eof) v tk) by exact HE.
      destruct (entry_unique _ _ _ _ _ _ _ _ _ _ HSt2 E2 HE' HE2) as (E3 & <- & _). inversion E3; subst. contradiction.
    + assert (HSt2 : Stream X ((t :: e) ++ c :: sw ++ ts) eof) by (apply (stream_suffix X [mkTok IDENT p w; a]); exact HSt).
      assert (E2 : (t :: e) ++ c :: sw ++ ts = (t2 :: e2) ++ c2 :: sw2 ++ ts2) by exact (f_equal (skipn 2) E1).
      assert (E0 : p2 = p /\ w2 = w /\ a2 = a) by (injection E1; auto). destruct E0 as (-> & -> & ->).
      assert (HE' : Entry X (t :: e) (nextOf (c :: sw ++ ts) eof) v tk) by exact HE.
      assert (HE2' : Entry X (t2 :: e2) (nextOf (c2 :: sw2 ++ ts2) eof) v2 tk3) by exact HE2.
      destruct (entry_unique _ _ _ _ _ _ _ _ _ _ HSt2 E2 HE' HE2') as (E3 & E4 & -> & ->). inversion E3; inversion E4; subst.
      assert (E5 : sw = sw2 /\ ts = ts2).
      { destruct HS as [HS|[-> ->]], HS2 as [HS2|[-> ->]]; auto.
        - destruct sw as [|x [|y sw]]; try discriminate. destruct sw2 as [|x2 [|y2 sw2]]; try discriminate.
          simpl in *. split; congruence.
        - destruct sw as [|x [|y sw]]; discriminate.
        - destruct sw2 as [|x [|y sw2]]; discriminate. }
      destruct E5 as [-> ->].
      assert (HSt3 : Stream X ts2 eof).
      { apply (stream_suffix X sw2). apply (stream_suffix X [c2]). eapply stream_suffix. exact HSt2. }
      destruct (IH HSt3 _ _ _ HF2) as (-> & -> & ->). auto.
Qed.
