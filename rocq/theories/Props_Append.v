(** Property C85: appending lines to a source affects its last rule only. *)
From Coq Require Import String.
From Verif Require Import Base Utf8 Token Strconv Ext Lexer LexSpec LexSpec2 LexSpec3 LexerProofs LexOne LexSeq LexWords Ast Env Diag Parser ParseSound ParseStream ParseFacts ParseFrame ParseTop ParseSource
  ParseLayout ParseLocal Props_Lexer Props_LexFull Props_Parser Props_Layout.
Open Scope string_scope.
Open Scope list_scope.
Open Scope Z_scope.

(** ** Specification *)

(** The messages a deferred check can give. *)
Definition late (d : diag) : Prop :=
  match dMsg d with
  | MNotExist _ | MRangeTypes _ _ _ _ _ | MFloatForInt | MIntForFloat | MIntUpper | MFloatUpper => True
  | _ => False
  end.

Definition listed (ds : option (list diag)) : list diag := match ds with Some l => l | None => [] end.

(** ** The rule loop *)

Section Append.
Variable X : Ext.

Lemma parseRule_grows : forall f p n d q, parseRule X f p = Ok (n, d, q) ->
  exists ne nd, env q = env p ++ ne /\ (length ne <= 1)%nat /\ perrors (handle q d) = perrors p ++ nd /\ (length nd <= 1)%nat.
Proof.
  intros f p n d q H. unfold parseRule in H.
  assert (HK : forall q d, keeps p q -> exists ne nd, env q = env p ++ ne /\ (length ne <= 1)%nat /\ perrors (handle q d) = perrors p ++ nd /\ (length nd <= 1)%nat).
  { intros q0 d0 (K1 & K2 & _). exists [], (match d0 with Some x => [x] | None => [] end). rewrite K1, app_nil_r. split; auto. split; [cbn; lia|].
    destruct d0; cbn [handle addDiag perrors]; rewrite K2; (split; [now rewrite ?app_nil_r|cbn; lia]). }
  destruct (curr p); try (inversion H; subst; apply HK; apply keeps_refl).
  - apply parseComment_keeps in H. auto.
  - destruct (pnext X p) as [p1| | |] eqn:E1; try discriminate. simpl in H. apply keeps_next in E1.
    destruct (curr p1); try (inversion H; subst; apply HK; exact E1).
    + destruct (pnext X p1) as [p2| | |] eqn:E2; try discriminate. cbn [rbind] in H. apply keeps_next in E2.
      destruct (parseEntry X f (precedence (curr p2)) p2) as [[[e d1] p3]| | |] eqn:E3; try discriminate. cbn [rbind] in H.
      apply parseEntry_keeps in E3. pose proof (keeps_trans _ _ _ E1 (keeps_trans _ _ _ E2 E3)) as K3.
      destruct d1; [inversion H; subst; auto|].
      destruct (ruleTrailing X p3) as [[tc p4]| | |] eqn:E4; try discriminate. cbn [rbind] in H.
      apply ruleTrailing_keeps in E4. pose proof (keeps_trans _ _ _ K3 E4) as (K4 & K5 & _).
      unfold registerRule, add in H. rewrite K4 in H. cbn [iName] in H. destruct (exists_ (env p) (currLit p)).
      * destruct (node_start (get (env (setEnv p4 (env p))) (currLit p))); try discriminate. cbn [rbind] in H. inversion H; subst.
        eexists [], [_]. cbn [handle addDiag setEnv env perrors]. rewrite app_nil_r, K5. split; [reflexivity|]. split; [cbn; lia|]. split; [reflexivity|cbn; lia].
      * cbn [rbind] in H. inversion H; subst. eexists [_], []. cbn [handle setEnv env perrors]. rewrite app_nil_r, K5. split; [reflexivity|]. split; [cbn; lia|]. split; [reflexivity|cbn; lia].
    + destruct (pnext X p1) as [p2| | |] eqn:E2; try discriminate. cbn [rbind] in H. apply keeps_next in E2.
      destruct (parseEntry X f LOWEST p2) as [[[e d1] p3]| | |] eqn:E3; try discriminate. cbn [rbind] in H.
      apply parseEntry_keeps in E3. pose proof (keeps_trans _ _ _ E1 (keeps_trans _ _ _ E2 E3)) as K3.
      destruct d1; [inversion H; subst; auto|].
      destruct (ruleTrailing X p3) as [[tc p4]| | |] eqn:E4; try discriminate. cbn [rbind] in H.
      apply ruleTrailing_keeps in E4. inversion H; subst. apply HK. eapply keeps_trans; eauto.
    + destruct (pnext X p1) as [p2| | |] eqn:E2; try discriminate. cbn [rbind] in H. apply keeps_next in E2.
      destruct (parseEntry X f LOWEST p2) as [[[e d1] p3]| | |] eqn:E3; try discriminate. cbn [rbind] in H.
      apply parseEntry_keeps in E3. pose proof (keeps_trans _ _ _ E1 (keeps_trans _ _ _ E2 E3)) as K3.
      destruct d1; [inversion H; subst; auto|].
      destruct (ruleTrailing X p3) as [[tc p4]| | |] eqn:E4; try discriminate. cbn [rbind] in H.
      apply ruleTrailing_keeps in E4. inversion H; subst. apply HK. eapply keeps_trans; eauto.
Qed.

Definition grown (acc : list node) (p : parser) (R : list node) (q : parser) : Prop :=
  exists nr ne nd, R = acc ++ nr /\ env q = env p ++ ne /\ perrors q = perrors p ++ nd.

Lemma fileLoop_grows : forall rf f acc p R q, fileLoop X rf f acc p = Ok (R, q) -> grown acc p R q.
Proof.
  intros rf. induction f as [|f IH]; intros acc p R q H; cbn [fileLoop] in H; destruct (teq (curr p) EOF); try discriminate;
    try (injection H as <- <-; exists [], [], []; rewrite !app_nil_r; auto).
  destruct (parseRule X rf p) as [[[n d] p1]| | |] eqn:E1; try discriminate. cbn [rbind] in H.
  destruct (pnext X (handle p1 d)) as [p2| | |] eqn:E2; try discriminate. cbn [rbind] in H.
  apply keeps_next in E2 as (K1 & K2 & _). apply IH in H as (nr & ne & nd & -> & H2 & H3).
  destruct (parseRule_grows _ _ _ _ _ E1) as (me & md & M1 & _ & M2 & _).
  assert (EH : env (handle p1 d) = env p1) by (destruct d; reflexivity).
  exists ((if notNil n then [n] else []) ++ nr), (me ++ ne), (md ++ nd). rewrite H2, H3, K1, K2, EH, M1, M2, !app_assoc. split; auto.
  destruct (notNil n); [reflexivity|now rewrite app_nil_r].
Qed.

(** The first parser reads [u] and then the end of its source; the second reads [u] first. *)
Variable eof : tokInfo.
Definition short (p : parser) (u : list tokInfo) : Prop := pk p = hd eof u /\ Str X (lx p) (tl u) (FEof eof) /\ Forall (fun t => tTok t <> EOF) u.
Definition long (q : parser) (u : list tokInfo) : Prop := u = [] \/ (pk q = hd eof u /\ exists l', scans X (length (tl u)) (lx q) = Ok (tl u, l')).

Lemma str_scans : forall l v, Str X l v (FEof eof) -> forall n us l1, scans X n l = Ok (us, l1) -> (exists w, v = us ++ w /\ Str X l1 w (FEof eof)) \/ (us <> [] /\ last us eof = eof).
Proof.
  intros l v H. remember (FEof eof) as f. induction H as [l t l' v f HS HE HR IH|l HS|l t HE HQ]; intros n us l1 S; subst; try discriminate.
  - destruct n as [|n]; cbn [scans] in S.
    + injection S as <- <-. left. exists (t :: v). split; auto. econstructor; eauto.
    + rewrite HS in S. cbn [rbind] in S. destruct (scans X n l') as [[ws l2]| | |] eqn:E; try discriminate S. cbn [rbind] in S. injection S as <- <-.
      destruct (IH eq_refl _ _ _ E) as [(w & -> & K)|[K1 K2]]; [left; exists w; auto|right]. split; [discriminate|]. destruct ws; [congruence|exact K2].
  - injection Heqf as ->. destruct (HQ n) as [l' S']. rewrite S in S'. injection S' as -> ->. destruct n as [|n].
    + cbn [scans repeat] in *. injection S as <-. left. exists []. split; auto. constructor; auto.
    + right. split; [discriminate|]. clear. induction n as [|n IH]; [reflexivity|]. change (repeat eof (S (S n))) with (eof :: repeat eof (S n)). cbn [last]. destruct (repeat eof (S n)) eqn:E; [discriminate E|exact IH].
Qed.

Lemma scans_split : forall l v w l2, scans X (length (v ++ w)) l = Ok (v ++ w, l2) -> exists l1, scans X (length v) l = Ok (v, l1) /\ scans X (length w) l1 = Ok (w, l2).
Proof.
  intros l v w l2 H. rewrite app_length, scans_app in H. destruct (scans X (length v) l) as [[v' l1]| | |] eqn:E1; try discriminate H. cbn [rbind] in H.
  destruct (scans X (length w) l1) as [[w' l3]| | |] eqn:E2; try discriminate H. cbn [rbind] in H. injection H as E <-.
  pose proof (scans_len _ _ _ _ _ E1) as L1. assert (Q : v' = v /\ w' = w).
  { revert L1 E. clear. revert v. induction v' as [|a v' IH]; intros [|c v] L E; try discriminate L; [auto|]. cbn [app length] in *. injection L as L. injection E as -> E. destruct (IH _ L E) as [-> ->]. auto. }
  destruct Q as [-> ->]. exists l1. split; congruence.
Qed.

Lemma last_snoc : forall {A} (pre : list A) a b c l d, a :: b :: l = pre ++ [c; d] -> l <> [] -> forall z, last l z = d.
Proof.
  intros A pre a b c l d E N z. assert (K : last (a :: b :: l) z = d) by (rewrite E; rewrite (app_removelast_last z (l := [c; d])) by discriminate; rewrite app_assoc; apply last_last).
  destruct l; [congruence|exact K].
Qed.

Lemma fileLoop_append : forall rf f acc p q u R p' R' q', cur q = cur p -> perrors q = perrors p -> env q = env p -> tasks q = tasks p -> curr p <> EOF ->
  short p u -> long q u -> tTok eof = EOF -> fileLoop X rf f acc p = Ok (R, p') -> fileLoop X rf f acc q = Ok (R', q') ->
  exists R0 L M E0 EL EM D0 DL DM, R = R0 ++ L /\ R' = R0 ++ M /\ (length L <= 1)%nat /\ env p' = E0 ++ EL /\ env q' = E0 ++ EM /\ (length EL <= 1)%nat /\
    perrors p' = D0 ++ DL /\ perrors q' = D0 ++ DM /\ (length DL <= 1)%nat.
Proof.
  intros rf. induction f as [|f IH]; intros acc p q u R p' R' q' HC HE HV HT NE HS HL EO H H'.
  { cbn [fileLoop] in H. destruct (teq (curr p) EOF) eqn:E; [|discriminate]. exfalso. apply NE. now apply teq_true in E. }
  pose proof (fileLoop_grows _ _ _ _ _ _ H') as G'. cbn [fileLoop] in H, H'.
  assert (E1 : teq (curr p) EOF = false) by (destruct (teq (curr p) EOF) eqn:E; auto; exfalso; apply NE; now apply teq_true in E).
  assert (E2 : teq (curr q) EOF = false) by (unfold curr in *; rewrite HC; exact E1). rewrite E1 in H. rewrite E2 in H'.
  destruct (parseRule X rf p) as [[[n d] p1]| | |] eqn:EP; try discriminate. cbn [rbind] in H.
  destruct (pnext X (handle p1 d)) as [p2| | |] eqn:EN; try discriminate. cbn [rbind] in H.
  destruct (parseRule_grows _ _ _ _ _ EP) as (me & md & M1 & M2 & M3 & M4).
  assert (PK : cur p2 = pk p1 /\ perrors p2 = perrors (handle p1 d) /\ env p2 = env p1 /\ tasks p2 = tasks p1 /\ exists t, scan X (lx p1) = Ok (t, lx p2) /\ pk p2 = t).
  { unfold pnext in EN. assert (lx (handle p1 d) = lx p1) by (destruct d; reflexivity). rewrite H0 in EN. destruct (scan X (lx p1)) as [[t l]| | |]; try discriminate. cbn [rbind] in EN. injection EN as <-.
    cbn [cur perrors env tasks lx pk]. destruct d; cbn [handle addDiag pk perrors env tasks]; eauto 10. }
  destruct PK as (P1 & P2 & P3 & P4 & t & P5 & P6).
  destruct (teq (curr p2) EOF) eqn:E3.
  - (* the last attempt *)
    assert (HF : R = (if notNil n then acc ++ [n] else acc) /\ p' = p2) by (destruct f; cbn [fileLoop] in H; rewrite E3 in H; injection H as <- <-; auto). destruct HF as [-> ->].
    destruct G' as (nr & ne & nd & G1 & G2 & G3). exists acc, (if notNil n then [n] else []), nr, (env p), me, ne, (perrors p), md, nd.
    split; [destruct (notNil n); [auto|now rewrite app_nil_r]|]. split; auto. split; [destruct (notNil n); cbn; lia|].
    split; [congruence|]. split; [congruence|]. split; auto. split; [congruence|]. split; [congruence|auto].
  - (* more to come: the tokens read so far are common *)
    assert (N3 : tTok (pk p1) <> EOF) by (intros K; unfold curr in E3; rewrite P1, K in E3; discriminate E3).
    pose proof (parseRule_loc X rf (cur p) (pk p) (perrors p) (env p) (tasks p) (lx p) (n, d, p1)) as LOC.
    assert (EP' : parseRule X rf (mkParser (lx p) (cur p) (pk p) (perrors p) (env p) (tasks p)) = Ok (n, d, p1)) by (destruct p; exact EP).
    destruct (LOC EP') as (k & us & S1 & (pre & PRE) & K). cbn [st carry_pair snd] in S1, PRE. clear LOC.
    destruct HS as (S2 & S3 & S4).
    assert (U : u = pk p :: tl u).
    { destruct u as [|x u]; [|cbn in S2; subst; reflexivity]. exfalso. cbn [hd] in S2. destruct (str_scans _ _ S3 _ _ _ S1) as [(w & W1 & W2)|[W1 W2]].
      - cbn [tl] in W1. symmetry in W1. apply app_eq_nil in W1 as [-> ->]. destruct pre as [|x pre]; [|destruct pre as [|? [|? ?]]; discriminate PRE]. injection PRE as _ PRE. rewrite <- PRE, S2 in N3. now apply N3.
      - rewrite (last_snoc _ _ _ _ _ _ PRE W1 eof) in W2. rewrite W2 in N3. now apply N3. }
    destruct (str_scans _ _ S3 _ _ _ S1) as [(w & W1 & W2)|[W1 W2]]; [|rewrite (last_snoc _ _ _ _ _ _ PRE W1 eof) in W2; rewrite W2 in N3; exfalso; now apply N3].
    destruct HL as [HL|[L1 (l' & L2)]]; [rewrite HL in U; discriminate|]. rewrite W1 in L2. destruct (scans_split _ _ _ _ L2) as (lm & L3 & L4).
    pose proof (scans_len _ _ _ _ _ S1) as LN. rewrite LN in L3.
    specialize (K _ _ L3). assert (EQ : parseRule X rf q = Ok (put (n, d, p1) lm)) by (rewrite <- K, <- HC, <- HE, <- HV, <- HT, S2, <- L1; f_equal; now destruct q).
    rewrite EQ in H'. cbn [rbind put carry_pair fst snd carry_parser] in H'.
    destruct (pnext X (handle _ d)) as [q2| | |] eqn:EN' in H'; try discriminate. cbn [rbind] in H'.
    assert (QK : cur q2 = pk p1 /\ perrors q2 = perrors (handle p1 d) /\ env q2 = env p1 /\ tasks q2 = tasks p1 /\ exists t, scan X lm = Ok (t, lx q2) /\ pk q2 = t).
    { unfold pnext in EN'. match type of EN' with context [lx (handle ?z d)] => assert (HZ : lx (handle z d) = lm) by (destruct d; reflexivity) end. rewrite HZ in EN'.
      destruct (scan X lm) as [[t' l]| | |]; try discriminate. cbn [rbind] in EN'. injection EN' as <-. cbn [cur perrors env tasks lx pk].
      destruct d; cbn [handle addDiag pk perrors env tasks]; eauto 10. }
    destruct QK as (Q1 & Q2 & Q3 & Q4 & t' & Q5 & Q6).
    apply (IH (if notNil n then acc ++ [n] else acc) p2 q2 w R p' R' q'); auto; try congruence.
    + intros EE. unfold curr in *. rewrite EE in E3. discriminate E3.
    + split; [|split].
      * rewrite P6. destruct w as [|x w]; cbn [hd].
        -- destruct (str_eof_next _ _ _ W2) as (l2 & Z1 & _). congruence.
        -- inversion W2; subst. congruence.
      * destruct w as [|x w]; cbn [tl].
        -- destruct (str_eof_next _ _ _ W2) as (l2 & Z1 & Z2). rewrite P5 in Z1. injection Z1 as _ ->. exact Z2.
        -- inversion W2 as [? ? ? ? ? Z1 Z2 Z3| |]; subst. rewrite P5 in Z1. injection Z1 as _ ->. exact Z3.
      * rewrite U, W1 in S4. apply Forall_inv_tail, Forall_app in S4. apply S4.
    + destruct w as [|x w]; [now left|right]. cbn [hd tl]. cbn [length scans] in L4. rewrite Q5 in L4. cbn [rbind] in L4.
      destruct (scans X (length w) (lx q2)) as [[ws lw]| | |]; try discriminate L4. cbn [rbind] in L4. injection L4 as E4 E5 _. split; [congruence|]. exists lw. now rewrite E5.
Qed.
End Append.

(** ** The tokens *)

Lemma posAt_append : forall a b k, (k <= length a)%nat -> posAt (a ++ b) k = posAt a k.
Proof. intros a b k L. unfold posAt. now rewrite firstn_app, (proj2 (Nat.sub_0_le _ _) L), firstn_O, app_nil_r. Qed.

(** The tokens of a source are the first tokens of the source with further lines. *)
Lemma append_scans : forall X a b eof ts l k l', St a l k -> St (a ++ 10 :: b) l' k -> Str X l ts (FEof eof) -> exists l1, scans X (length ts) l' = Ok (ts, l1) /\
  exists k1, St (a ++ 10 :: b) l1 k1 /\ (k1 <= length a)%nat /\ allBlank (skipn k1 a) /\ Forall (fun t => exists j, (j <= length a)%nat /\ tPos t = posAt a j) ts.
Proof.
  intros X a b eof ts. induction ts as [|t ts IH]; intros l k l' S S' HS.
  { exists l'. split; auto. exists k. split; auto. split; [exact (st_le _ _ _ S)|]. split; auto.
    destruct (str_eof_next _ _ _ HS) as (l0 & E0 & _). pose proof (str_eofTok _ _ _ _ HS) as EO.
    destruct (scan_full_err X _ _ _ S) as [[E _]|(g & tk & text & lit & rest & l1 & N & B & LX & E & _ & _ & _ & _)]; [congruence|].
    assert (tk = EOF) by (rewrite E0 in E; injection E as -> _; exact EO). subst tk. rewrite N. destruct (lexed_eof _ _ _ _ LX) as (-> & _ & ->). now rewrite app_nil_r. }
  inversion HS as [? ? l0 ? ? E1 E2 E3| |]; subst.
  pose proof (st_le _ _ _ S) as LE.
  destruct (scan_full_err X _ _ _ S) as [[E _]|(g & tk & text & lit & rest & l1 & N & B & LX & E & S1 & _ & _ & _)]; [congruence|].
  rewrite E1 in E. injection E as -> <-. cbn [tTok] in E2.
  assert (NT : text <> []). { intros ->. pose proof (lexed_nil _ _ _ _ LX). subst rest. inversion LX; subst; try congruence; try discriminate. match goal with K : In _ punctTable |- _ => cbn in K; repeat (destruct K as [K|K]; [discriminate K|]); contradiction end. }
  assert (SK : skipn k (a ++ 10 :: b) = g ++ text ++ (rest ++ 10 :: b)) by (rewrite skipn_app, (proj2 (Nat.sub_0_le _ _) LE), N, <- !app_assoc; reflexivity).
  assert (LX' : Lexed X tk text lit (rest ++ 10 :: b)).
  { apply (lexed_apart X tk text lit rest [] (10 :: b)); auto.
    - now rewrite app_nil_r.
    - rewrite app_nil_r. pose proof (st_good _ _ _ S) as G. rewrite N in G. now apply good_drop in G.
    - now left.
    - right. cbn. unfold blank. lia. }
  destruct (scan_full_err X _ _ _ S') as [[_ NO]|(g2 & tk2 & text2 & lit2 & rest2 & l2 & N2 & B2 & LX2 & F1 & F2 & _ & _ & U)]; [exfalso; eapply NO; eauto|].
  destruct (U g tk text lit _ SK B LX') as (-> & -> & -> & -> & <-).
  destruct (IH _ _ _ S1 F2 E3) as (l3 & I & k1 & I1 & I2 & I3 & I4).
  assert (LG : (k + length g2 <= length a)%nat).
  2: { exists l3. cbn [length scans]. rewrite F1. cbn [rbind]. rewrite I. cbn [rbind]. rewrite posAt_append by exact LG. split; [reflexivity|]. exists k1. split; [exact I1|]. split; [exact I2|]. split; [exact I3|]. constructor; [|exact I4]. eexists. split; [exact LG|reflexivity]. }
  apply (f_equal (@length Z)) in N. rewrite skipn_length, !app_length in N. assert (length text2 <> 0)%nat by (destruct text2; [congruence|discriminate]). lia.
Qed.

(** ** C85 *)

Lemma runTask_late : forall e t d, runTask e t = Some d -> late d.
Proof.
  intros e t d H. unfold runTask in H.
  repeat match type of H with context [match ?x with _ => _ end] => destruct x; try discriminate H end; injection H as <-; exact I.
Qed.

Lemma failures_late : forall e tk, Forall late (failures e tk).
Proof.
  intros e tk. apply Forall_forall. intros d H. unfold failures in H. apply in_flat_map in H as (t & _ & H). destruct (runTask e t) as [d'|] eqn:E; [|destruct H].
  destruct H as [<-|[]]. eapply runTask_late; eauto.
Qed.

Lemma collect_listed : forall l, listed (collect l) = l.
Proof. now intros [|d l]. Qed.

Lemma runTasks_parts : forall p, perrors (runTasks p) = perrors p ++ failures (env p) (tasks p) /\ env (runTasks p) = env p.
Proof. intros p. destruct (fold_spec (env p) (tasks p) p) as (H1 & H2 & _). auto. Qed.

Theorem C85_append : forall X a b e t ds p t' ds' p', decodable a -> decodable b ->
  parseSource X (parseFuel a) a e = Ok ((Some t, ds), p) ->
  parseSource X (parseFuel (a ++ 10 :: b)) (a ++ 10 :: b) e = Ok ((Some t', ds'), p') ->
  exists R last more, t = NCDDL zeroPos (R ++ last) /\ t' = NCDDL zeroPos (R ++ more) /\ (length last <= 1)%nat /\
  exists E elast emore, env p = E ++ elast /\ env p' = E ++ emore /\ (length elast <= 1)%nat /\
  exists D dlast checks dmore, listed ds = D ++ dlast ++ checks /\ listed ds' = D ++ dmore /\ (length dlast <= 1)%nat /\ Forall late checks.
Proof.
  intros X a b e t ds p t' ds' p' DA DB H H'.
  assert (DS : decodable (a ++ 10 :: b)) by (apply good_app; [exact DA|]; apply (good_app [10] b); [now apply good_by_ascii|exact DB]).
  set (s' := a ++ 10 :: b) in *. set (f := Nat.max (parseFuel a) (parseFuel s')).
  assert (HF : parseSource X f a e = Ok ((Some t, ds), p)).
  { destruct (C14_terminates X a e DA) as (r & _ & _ & HR). rewrite (HR (parseFuel a)) in H by lia. rewrite (HR f) by (unfold f; lia). exact H. }
  assert (HF' : parseSource X f s' e = Ok ((Some t', ds'), p')).
  { destruct (C14_terminates X s' e DS) as (r & _ & _ & HR). rewrite (HR (parseFuel s')) in H' by lia. rewrite (HR f) by (unfold f; lia). exact H'. }
  destruct (new_str X a DA) as (ts & fi & k & HS & _ & _ & HL & _).
  assert (FE : exists eof, fi = FEof eof).
  { pose proof (source_post X _ a e f ts fi HS ltac:(unfold f, parseFuel; lia) (posOk_true ts fi)) as SP. rewrite HF in SP. cbn [wp] in SP.
    destruct SP as (t2 & l2 & _ & [(_ & SP & _)|(_ & rules & tk & df & dd & _ & _ & _ & _ & _ & _ & _ & SP & _)]); [discriminate SP|eauto]. }
  destruct FE as [eof ->]. pose proof (ParseStream.newParser_toks X _ e _ _ HS) as NP.
  destruct NP as [(_ & K & _)|(q & l1 & t1 & t2 & E & HT & Q1 & Q2 & Q3 & _ & _)]; [discriminate K|].
  destruct (append_scans X a b eof ts _ _ _ (newLexer_st _ DA) (newLexer_st _ DS) HS) as (lz & HZ & _).
  unfold parseSource in HF, HF'. rewrite E in HF. cbn [rbind] in HF. destruct (newParser X (newLexer s') e) as [q'| | |] eqn:E'; try discriminate HF'. cbn [rbind] in HF'.
  unfold parseFile in HF, HF'. destruct (errors (lx q)); [|discriminate HF]. destruct (errors (lx q')); [|discriminate HF'].
  destruct (fileLoop X f f [] q) as [[R pz]| | |] eqn:EL; try discriminate HF. destruct (fileLoop X f f [] q') as [[R' pz']| | |] eqn:EL'; try discriminate HF'.
  cbn [rbind] in HF, HF'. injection HF as <- <- <-. injection HF' as <- <- <-.
  destruct (runTasks_parts pz) as [Z1 Z2], (runTasks_parts pz') as [Z3 Z4].
  assert (Q' : perrors q' = [] /\ env q' = e /\ tasks q' = [] /\ exists l2, scan X (newLexer s') = Ok (cur q', l2) /\ scan X l2 = Ok (pk q', lx q')).
  { unfold newParser, pnext in E'. cbn [lx pk perrors env tasks] in E'. destruct (scan X (newLexer s')) as [[u1 l2]| | |] eqn:F1; try discriminate E'. cbn [rbind lx pk perrors env tasks] in E'.
    destruct (scan X l2) as [[u2 l3]| | |] eqn:F2; try discriminate E'. cbn [rbind] in E'. injection E' as <-. cbn. eauto 10. }
  destruct Q' as (Q4 & Q5 & Q6 & l2 & Q7 & Q8).
  pose proof (str_eofTok _ _ _ _ HS) as EO. pose proof (str_ne _ _ _ _ HS) as NE.
  assert (MAIN : exists R0 L M E0 EL EM D0 DL DM, R = R0 ++ L /\ R' = R0 ++ M /\ (length L <= 1)%nat /\ env pz = E0 ++ EL /\ env pz' = E0 ++ EM /\ (length EL <= 1)%nat /\
    perrors pz = D0 ++ DL /\ perrors pz' = D0 ++ DM /\ (length DL <= 1)%nat).
  { destruct ts as [|tc ts].
    - pose proof (fileLoop_grows _ _ _ _ _ _ _ EL') as (nr & ne & nd & G1 & G2 & G3).
      assert (TE : teq (curr q) EOF = true) by (apply teq_true; unfold curr; rewrite (tk_cur _ _ _ _ HT); exact EO).
      assert (HQ : R = [] /\ pz = q) by (destruct f; cbn [fileLoop] in EL; rewrite TE in EL; injection EL as <- <-; auto). destruct HQ as [-> ->].
      exists [], [], R', e, [], ne, [], [], nd. rewrite Q1, Q2. rewrite Q5 in G2. rewrite Q4 in G3. cbn. rewrite app_nil_r. repeat split; auto.
    - cbn [length scans] in HZ. rewrite Q7 in HZ. cbn [rbind] in HZ. destruct (scans X (length ts) l2) as [[us lw]| | |] eqn:F1; try discriminate HZ. cbn [rbind] in HZ. injection HZ as C1 C2 _. subst us.
      eapply (fileLoop_append X eof f f [] q q' ts); eauto; try congruence.
      + rewrite (tk_cur _ _ _ _ HT). exact C1.
      + unfold curr. rewrite (tk_cur _ _ _ _ HT). cbn [nth]. now apply Forall_inv in NE.
      + split; [|split].
        * rewrite (tk_pk _ _ _ _ HT). now destruct ts.
        * pose proof (tk_str _ _ _ _ HT) as K. now destruct ts.
        * now apply Forall_inv_tail in NE.
      + destruct ts as [|tk ts]; [now left|right]. cbn [hd tl]. cbn [length scans] in F1. rewrite Q8 in F1. cbn [rbind] in F1.
        destruct (scans X (length ts) (lx q')) as [[us lv]| | |]; try discriminate F1. cbn [rbind] in F1. injection F1 as C3 C4 _. split; auto. exists lv. now rewrite C4. }
  destruct MAIN as (R0 & L & M & E0 & EE & EM & D0 & DL & DM & -> & -> & M3 & M4 & M5 & M6 & M7 & M8 & M9).
  exists R0, L, M. split; auto. split; auto. split; auto. exists E0, EE, EM. rewrite Z2, Z4. split; auto. split; auto. split; auto.
  exists D0, DL, (failures (env pz) (tasks pz)), (DM ++ failures (env pz') (tasks pz')). rewrite !collect_listed, Z1, Z3, M7, M8, <- !app_assoc. repeat split; auto. apply failures_late.
Qed.

(** A source of three rules with a complaint; a fourth line extends its last rule. *)
Example C85_ex : exists a b t ds p t' ds' p' r1 r2 r3 r3', decodable a /\ decodable b /\
  parseSource X0 (parseFuel a) a [] = Ok ((Some t, ds), p) /\ parseSource X0 (parseFuel (a ++ 10 :: b)) (a ++ 10 :: b) [] = Ok ((Some t', ds'), p') /\
  t = NCDDL zeroPos [r1; r2; r3] /\ t' = NCDDL zeroPos [r1; r2; r3'] /\ r3 <> r3' /\ length (listed ds) = 3%nat /\ length (listed ds') = 2%nat.
Proof.
  exists (str "x = int" ++ 10 :: str "x = tstr" ++ 10 :: str "y = [1, z"), (str "]").
  do 10 eexists. split; [now apply good_by_ascii|]. split; [now apply good_by_ascii|]. split; [vm_compute; reflexivity|]. split; [vm_compute; reflexivity|].
  split; [reflexivity|]. split; [reflexivity|]. split; [discriminate|]. split; reflexivity.
Qed.

(** The last rule of an accepted source is not safe from a line appended to it. *)
Theorem C85_last_refuted : exists a b t p R' p', decodable a /\ decodable b /\
  parseSource X0 (parseFuel a) a [] = Ok ((Some (NCDDL zeroPos [t]), None), p) /\
  parseSource X0 (parseFuel (a ++ 10 :: b)) (a ++ 10 :: b) [] = Ok ((Some (NCDDL zeroPos R'), None), p') /\ ~ In t R'.
Proof.
  exists (str "x = int"), (str "/ tstr"). do 4 eexists. split; [now apply good_by_ascii|]. split; [now apply good_by_ascii|]. split; [vm_compute; reflexivity|]. split; [vm_compute; reflexivity|].
  intros [K|[]]. discriminate K.
Qed.
