(** Property C101: what the environment changes in a parse. *)
From Coq Require Import String.
From Verif Require Import Base Utf8 Token Strconv Ext Lexer LexSpec LexSpec2 LexSpec3 Ast Env Diag Parser ParseSpec ParseStream ParseFacts ParseFrame ParseTop ParseSource ParseConcat ParseEnv ParseSound ParseTree
  Props_Lexer Props_LexFull Props_Parser Props_Append Props_Concat Props_Says.
Open Scope string_scope.
Open Scope list_scope.
Open Scope Z_scope.

(** ** Specification *)

(** Messages about names and what they stand for. *)
Definition aboutNames (d : diag) : bool :=
  match dMsg d with
  | MExisting _ _ _ | MNotExist _ | MRangeTypes _ _ _ _ _ | MFloatForInt | MIntForFloat | MIntUpper | MFloatUpper => true
  | _ => false
  end.

(** [e'] binds what [e] binds, to the same values. *)
Definition extends (e e' : environment) : Prop := forall w v, boundTo e w v -> boundTo e' w v.

(** ** Requests *)

Definition told (evs : list event) : list diag := flat_map (fun v => match v with Told d => [d] | _ => [] end) evs.

Lemma assoc_snoc : forall e w v x, assoc x (e ++ [(w, v)]) = match assoc x e with Some y => Some y | None => if beq w x then Some v else None end.
Proof. induction e as [|[w' v'] e IH]; intros w v x; cbn [assoc app]; [reflexivity|]. destruct (beq w' x); auto. Qed.

Lemma checked_names : forall e tk, filter (fun d => negb (aboutNames d)) (checked e tk) = [].
Proof.
  intros e tk. induction tk as [|t tk IH]; [reflexivity|]. cbn [checked flat_map]. fold (checked e tk). rewrite filter_app, IH, app_nil_r.
  destruct t as [w p|k i [ ]|w s t|w s t]; cbn [runTask]; auto; try (destruct (exists_ e w); [|reflexivity]);
    try (destruct (typeOf (get e w)) as [[]|]; reflexivity); try reflexivity. destruct (sameType _ _); reflexivity.
Qed.

Lemma carry_told : forall evs e e' ds, carry evs e = Ok (e', ds) ->
  filter (fun d => negb (aboutNames d)) ds = filter (fun d => negb (aboutNames d)) (told evs).
Proof.
  induction evs as [|[d|w a v] evs IH]; intros e e' ds H; cbn [carry] in H; [|change (told (Told d :: evs)) with (d :: told evs)|change (told (Defines w a v :: evs)) with (told evs)].
  - inversion H; reflexivity.
  - destruct (carry evs e) as [[e1 ds1]| | |] eqn:E; try discriminate. cbn [rbind] in H. inversion H; subst. cbn [filter]. rewrite (IH _ _ _ E). reflexivity.
  - destruct (assoc w e) as [old|]; [|eauto]. destruct (node_start old) as [s| | |]; try discriminate. cbn [rbind] in H.
    destruct (carry evs e) as [[e1 ds1]| | |] eqn:E; try discriminate. cbn [rbind] in H. inversion H; subst. cbn [filter aboutNames dMsg negb]. eauto.
Qed.

(** [E] is [e] with [B] behind it. *)
Definition over (e E B : environment) : Prop := forall w, assoc w E = match assoc w e with Some v => Some v | None => assoc w B end.

Lemma over_refl : forall e, over e e [].
Proof. intros e w. destruct (assoc w e); reflexivity. Qed.

Lemma carry_over : forall evs e E B B' dB, over e E B -> carry evs B = Ok (B', dB) ->
  (forall w v, boundTo e w v -> exists q, node_start v = Ok q) ->
  exists E' dE, carry evs E = Ok (E', dE) /\ over e E' B' /\
    (forall d, In d dB -> In d dE \/ exists w a v l c l' c', d = mkDiag a a (MExisting w l c) /\ boundTo e w v /\ In (mkDiag a a (MExisting w l' c')) dE) /\
    (forall d, In d dE -> In d dB \/ exists w a v q, boundTo e w v /\ node_start v = Ok q /\ d = mkDiag a a (MExisting w (pLine q) (pColumn q))) /\
    (forall w v q, assoc w B = None -> assoc w B' <> None -> boundTo e w v -> node_start v = Ok q -> exists a, In (mkDiag a a (MExisting w (pLine q) (pColumn q))) dE).
Proof.
  induction evs as [|[d|w a v] evs IH]; intros e E B B' dB OV H HS; cbn [carry] in *.
  - injection H as <- <-. exists E, []. split; [reflexivity|]. split; [exact OV|]. split; [intros ? []|]. split; [intros ? []|]. intros w v q K1 K2. contradiction.
  - destruct (carry evs B) as [[B1 d1]| | |] eqn:EB; try discriminate. cbn [rbind] in H. injection H as <- <-.
    destruct (IH _ _ _ _ _ OV EB HS) as (E' & dE & -> & O' & P1 & P2 & P3). exists E', (d :: dE). cbn [rbind]. split; [reflexivity|]. split; [exact O'|].
    split; [|split].
    + intros x [<-|Hx]; [left; now left|]. destruct (P1 x Hx) as [K|(w & a & v & l & c & l' & c' & K1 & K2 & K3)]; [left; now right|right].
      exists w, a, v, l, c, l', c'. split; auto. split; auto. now right.
    + intros x [<-|Hx]; [left; now left|]. destruct (P2 x Hx) as [K|K]; [left; now right|now right].
    + intros w v q K1 K2 K3 K4. destruct (P3 w v q K1 K2 K3 K4) as [a Ha]. exists a. now right.
  - pose proof (OV w) as OW. destruct (assoc w B) as [old|] eqn:EA.
    + destruct (node_start old) as [s| | |] eqn:ES; try discriminate. cbn [rbind] in H. destruct (carry evs B) as [[B1 d1]| | |] eqn:EB; try discriminate. cbn [rbind] in H. injection H as <- <-.
      destruct (IH _ _ _ _ _ OV EB HS) as (E' & dE & EC & O' & P1 & P2 & P3).
      destruct (assoc w e) as [z|] eqn:EE.
      * rewrite OW. destruct (HS w z EE) as [q Q]. rewrite Q, EC. cbn [rbind]. eexists; eexists. split; [reflexivity|]. split; [exact O'|]. split; [|split].
        -- intros x [<-|Hx]; [right; exists w, a, z, (pLine s), (pColumn s), (pLine q), (pColumn q); split; auto; split; auto; now left|].
           destruct (P1 x Hx) as [K|(w1 & a1 & v1 & l & c & l' & c' & K1 & K2 & K3)]; [left; now right|right]. exists w1, a1, v1, l, c, l', c'. split; auto. split; auto. now right.
        -- intros x [<-|Hx]; [right; exists w, a, z, q; auto|]. destruct (P2 x Hx) as [K|K]; [left; now right|now right].
        -- intros w1 v1 q1 K1 K2 K3 K4. destruct (P3 w1 v1 q1 K1 K2 K3 K4) as [a1 Ha]. exists a1. now right.
      * rewrite OW, ES, EC. cbn [rbind]. eexists; eexists. split; [reflexivity|]. split; [exact O'|]. split; [|split].
        -- intros x [<-|Hx]; [left; now left|]. destruct (P1 x Hx) as [K|(w1 & a1 & v1 & l & c & l' & c' & K1 & K2 & K3)]; [left; now right|right]. exists w1, a1, v1, l, c, l', c'. split; auto. split; auto. now right.
        -- intros x [<-|Hx]; [left; now left|]. destruct (P2 x Hx) as [K|K]; [left; now right|now right].
        -- intros w1 v1 q1 K1 K2 K3 K4. destruct (P3 w1 v1 q1 K1 K2 K3 K4) as [a1 Ha]. exists a1. now right.
    + destruct (assoc w e) as [z|] eqn:EE.
      * (* bound in [e]: reported there only *)
        rewrite OW. destruct (HS w z EE) as [q Q]. rewrite Q. cbn [rbind].
        assert (OV' : over e E (B ++ [(w, v)])).
        { intros x. rewrite OV, assoc_snoc. destruct (assoc x e) eqn:EX; auto. destruct (assoc x B); auto. destruct (beq w x) eqn:BX; auto.
          apply beq_true in BX. subst. congruence. }
        destruct (IH _ _ _ _ _ OV' H HS) as (E' & dE & EC & O' & P1 & P2 & P3). rewrite EC. cbn [rbind]. eexists; eexists. split; [reflexivity|]. split; [exact O'|]. split; [|split].
        -- intros x Hx. destruct (P1 x Hx) as [K|(w1 & a1 & v1 & l & c & l' & c' & K1 & K2 & K3)]; [left; now right|right]. exists w1, a1, v1, l, c, l', c'. split; auto. split; auto. now right.
        -- intros x [<-|Hx]; [right; exists w, a, z, q; auto|]. auto.
        -- intros w1 v1 q1 K1 K2 K3 K4. destruct (beq w w1) eqn:BW.
           ++ apply beq_true in BW. subst w1. unfold boundTo in K3. rewrite EE in K3. injection K3 as <-. rewrite Q in K4. injection K4 as <-. exists a. now left.
           ++ destruct (P3 w1 v1 q1) as [a1 Ha]; auto; [rewrite assoc_snoc, K1, BW; reflexivity|]. exists a1. now right.
      * rewrite OW. assert (OV' : over e (E ++ [(w, v)]) (B ++ [(w, v)])).
        { intros x. rewrite !assoc_snoc, OV. destruct (assoc x e); auto. }
        destruct (IH _ _ _ _ _ OV' H HS) as (E' & dE & EC & O' & P1 & P2 & P3). exists E', dE. split; [exact EC|]. split; [exact O'|]. split; [exact P1|]. split; [exact P2|].
        intros w1 v1 q1 K1 K2 K3 K4. destruct (beq w w1) eqn:BW.
        -- apply beq_true in BW. subst w1. unfold boundTo in K3. congruence.
        -- apply (P3 w1 v1 q1); auto. rewrite assoc_snoc, K1, BW. reflexivity.
Qed.

Lemma listed_collect : forall l, listed (collect l) = l.
Proof. intros []; reflexivity. Qed.

Lemma missing_task : forall e t d w, runTask e t = Some d -> dMsg d = MNotExist w ->
  exists_ e w = false /\ forall e', exists_ e' w = false -> runTask e' t = Some d.
Proof.
  intros e t d w H HM. destruct t as [x p|k i n|x s t|x s t]; cbn [runTask] in *.
  - destruct (exists_ e x) eqn:E; [discriminate|]. injection H as <-. cbn [dMsg err] in HM. injection HM as <-. split; auto. intros e' ->. reflexivity.
  - destruct n; try discriminate. destruct (sameType _ _); [discriminate|]. injection H as <-. discriminate.
  - destruct (exists_ e x) eqn:E; [destruct (typeOf (get e x)) as [[]|]; try discriminate; injection H as <-; discriminate|].
    injection H as <-. cbn [dMsg err] in HM. injection HM as <-. split; auto. intros e' ->. reflexivity.
  - destruct (exists_ e x) eqn:E; [destruct (typeOf (get e x)) as [[]|]; try discriminate; injection H as <-; discriminate|].
    injection H as <-. cbn [dMsg err] in HM. injection HM as <-. split; auto. intros e' ->. reflexivity.
Qed.

Lemma checked_in : forall e tk d, In d (checked e tk) <-> exists t, In t tk /\ runTask e t = Some d.
Proof.
  intros e tk d. unfold checked. rewrite in_flat_map. split; intros (t & H1 & H2); exists t; split; auto.
  - destruct (runTask e t); [|contradiction]. destruct H2 as [<-|[]]. reflexivity.
  - rewrite H2. now left.
Qed.

Lemma checked_old : forall e tk d w l c, In d (checked e tk) -> dMsg d <> MExisting w l c.
Proof.
  intros e tk d w l c H. apply checked_in in H as (t & _ & H). destruct t as [x p|k i n|x s t|x s t]; cbn [runTask] in H.
  - destruct (exists_ e x); [discriminate|]. injection H as <-. discriminate.
  - destruct n; try discriminate. destruct (sameType _ _); [discriminate|]. injection H as <-. discriminate.
  - destruct (exists_ e x); [destruct (typeOf (get e x)) as [[]|]; try discriminate|]; injection H as <-; discriminate.
  - destruct (exists_ e x); [destruct (typeOf (get e x)) as [[]|]; try discriminate|]; injection H as <-; discriminate.
Qed.

Lemma boundTo_bound : forall e w, bound e w <-> exists v, boundTo e w v.
Proof.
  intros e w. unfold bound, boundTo. rewrite <- exists_names. unfold exists_. destruct (assoc w e) as [v|]; split; try discriminate; eauto. intros [v H]. discriminate.
Qed.

(** ** C101 *)

(** The tree, and the diagnostics that are not about names, do not depend on the environment. *)
Theorem C101_same : forall X fuel s e e' root ds p root' ds' p', parseSource X fuel s e = Ok ((root, ds), p) -> parseSource X fuel s e' = Ok ((root', ds'), p') ->
  root = root' /\ filter (fun d => negb (aboutNames d)) (listed ds) = filter (fun d => negb (aboutNames d)) (listed ds').
Proof.
  intros X fuel s e e' root ds p root' ds' p' H H'. destruct (source_events X fuel s) as [[k K]|(evs & fin & K)]; rewrite K in H, H'; [inversion H; inversion H'; subst; auto|].
  unfold outcome in *. destruct (carry evs e) as [[e1 d1]| | |] eqn:E1; try discriminate. destruct (carry evs e') as [[e2 d2]| | |] eqn:E2; try discriminate. cbn [rbind] in *.
  destruct fin as [[rules c]| | |]; try discriminate. cbn [rbind] in *. inversion H; inversion H'; subst. split; auto.
  rewrite !listed_collect, !filter_app, !checked_names, !app_nil_r, (carry_told _ _ _ _ E1), (carry_told _ _ _ _ E2). reflexivity.
Qed.

(** What ends in an empty environment ends in every environment whose values have a place. *)
Theorem C101_ends : forall X fuel s e root ds p, parseSource X fuel s [] = Ok ((root, ds), p) ->
  (forall w v, boundTo e w v -> exists q, node_start v = Ok q) -> exists ds' p', parseSource X fuel s e = Ok ((root, ds'), p').
Proof.
  intros X fuel s e root ds p H HS. destruct (source_events X fuel s) as [[k K]|(evs & fin & K)]; rewrite K in *; [inversion H; subst; eauto|].
  unfold outcome in *. destruct (carry evs []) as [[B dB]| | |] eqn:E1; try discriminate. cbn [rbind] in *. destruct fin as [[rules c]| | |]; try discriminate. cbn [rbind] in *.
  inversion H; subst. destruct (carry_over _ _ _ _ _ _ (over_refl e) E1 HS) as (E' & dE & -> & _). cbn [rbind]. eauto.
Qed.

(** What is bound in the end: what was, and of the rest what is bound in an empty environment. *)
Theorem C101_bound : forall X fuel s e root ds p root0 ds0 p0, parseSource X fuel s e = Ok ((root, ds), p) -> parseSource X fuel s [] = Ok ((root0, ds0), p0) ->
  (forall w v, boundTo e w v -> exists q, node_start v = Ok q) ->
  forall w v, boundTo (env p) w v <-> boundTo e w v \/ (~ bound e w /\ boundTo (env p0) w v).
Proof.
  intros X fuel s e root ds p root0 ds0 p0 H H0 HS w v.
  assert (OV : over e (env p) (env p0)).
  { destruct (source_events X fuel s) as [[k K]|(evs & fin & K)]; rewrite K in *; [inversion H; inversion H0; subst; apply over_refl|].
    unfold outcome in *. destruct (carry evs []) as [[B dB]| | |] eqn:E1; try discriminate. cbn [rbind] in *.
    destruct (carry_over _ _ _ _ _ _ (over_refl e) E1 HS) as (E' & dE & EC & O' & _). rewrite EC in H. cbn [rbind] in H.
    destruct fin as [[rules c]| | |]; try discriminate. cbn [rbind] in *. inversion H; inversion H0; subst. exact O'. }
  specialize (OV w). rewrite boundTo_bound. unfold boundTo in *. rewrite OV. destruct (assoc w e) as [x|]; split; intros K; auto.
  - destruct K as [K|[K _]]; auto. exfalso. apply K. eauto.
  - right. split; auto. intros [y Hy]. discriminate.
  - destruct K as [K|[_ K]]; [discriminate|auto].
Qed.

(** A name is reported as missing where it is in an empty environment, unless the environment binds it. *)
Theorem C101_missing : forall X fuel s e root ds p root0 ds0 p0, decodable s -> parseSource X fuel s e = Ok ((root, ds), p) -> parseSource X fuel s [] = Ok ((root0, ds0), p0) ->
  (forall w v, boundTo e w v -> exists q, node_start v = Ok q) ->
  forall d w, dMsg d = MNotExist w -> (In d (listed ds) <-> In d (listed ds0) /\ ~ bound e w).
Proof.
  intros X fuel s e root ds p root0 ds0 p0 D H H0 HS d w HM.
  assert (NB : In d (listed ds) -> ~ bound e w).
  { intros HI B. destruct ds as [l|]; [|contradiction]. pose proof (C79_true _ _ _ _ _ _ _ D H) as F. rewrite Forall_forall in F. specialize (F _ HI).
    apply boundTo_bound in B as [v B]. assert (B' : boundTo (env p) w v) by (apply (C101_bound _ _ _ _ _ _ _ _ _ _ H H0 HS); now left).
    assert (B2 : bound (env p) w) by (apply boundTo_bound; eauto). inversion F; subst; cbn [dMsg at_ expected] in HM; try discriminate; try (injection HM as <-; contradiction). all: cbn [dMsg] in HM; match type of HM with context [typeOf ?v] => destruct (typeOf v) as [[]|]; discriminate end. }
  destruct (source_events X fuel s) as [[k K]|(evs & fin & K)]; rewrite K in *; [inversion H; inversion H0; subst; cbn; tauto|].
  unfold outcome in *. destruct (carry evs []) as [[B dB]| | |] eqn:E1; try discriminate. cbn [rbind] in *.
  destruct (carry_over _ _ _ _ _ _ (over_refl e) E1 HS) as (E' & dE & EC & O' & P1 & P2 & _). rewrite EC in H. cbn [rbind] in H.
  destruct fin as [[rules c]| | |]; try discriminate. cbn [rbind] in *. inversion H; inversion H0; subst. rewrite !listed_collect in *. clear H H0.
  assert (EX : exists_ E' w = if exists_ e w then true else exists_ B w) by (unfold exists_; rewrite O'; destruct (assoc w e); reflexivity).
  rewrite !in_app_iff in *. split.
  - intros HI. split; [|auto]. destruct HI as [HI|HI].
    + destruct (P2 d HI) as [Q|(w1 & a & v & q & _ & _ & ->)]; [now left|discriminate].
    + right. apply checked_in in HI as (t & T1 & T2). apply checked_in. exists t. split; auto. destruct (missing_task _ _ _ _ T2 HM) as [M1 M2].
      rewrite EX in M1. assert (M3 : exists_ B w = false) by (destruct (exists_ e w); [discriminate|auto]). destruct (missing_task _ _ _ _ T2 HM) as [_ M4]. apply M4. exact M3.
  - intros [[HI|HI] N].
    + destruct (P1 d HI) as [Q|(w1 & a & v & l & c1 & l' & c' & -> & _)]; [now left|discriminate].
    + right. apply checked_in in HI as (t & T1 & T2). apply checked_in. exists t. split; auto. destruct (missing_task _ _ _ _ T2 HM) as [M1 M2]. apply M2.
      rewrite EX, M1. destruct (exists_ e w) eqn:EE; auto. exfalso. apply N. apply exists_names. exact EE.
Qed.

(** A definition of a name that the environment does not bind is reported as it is in an empty
    environment; if the environment binds a name that the source defines, that is reported, with the place of the old value. *)
Theorem C101_existing : forall X fuel s e root ds p root0 ds0 p0, parseSource X fuel s e = Ok ((root, ds), p) -> parseSource X fuel s [] = Ok ((root0, ds0), p0) ->
  (forall w v, boundTo e w v -> exists q, node_start v = Ok q) ->
  (forall d w l c, dMsg d = MExisting w l c -> ~ bound e w -> (In d (listed ds) <-> In d (listed ds0))) /\
  (forall w v q, boundTo e w v -> node_start v = Ok q -> bound (env p0) w -> exists a, In (mkDiag a a (MExisting w (pLine q) (pColumn q))) (listed ds)).
Proof.
  intros X fuel s e root ds p root0 ds0 p0 H H0 HS.
  destruct (source_events X fuel s) as [[k K]|(evs & fin & K)]; rewrite K in *; [inversion H; inversion H0; subst; cbn; split; [tauto|intros w v q _ _ []]|].
  unfold outcome in *. destruct (carry evs []) as [[B dB]| | |] eqn:E1; try discriminate. cbn [rbind] in *.
  destruct (carry_over _ _ _ _ _ _ (over_refl e) E1 HS) as (E' & dE & EC & O' & P1 & P2 & P3). rewrite EC in H. cbn [rbind] in H.
  destruct fin as [[rules c]| | |]; try discriminate. cbn [rbind] in *. inversion H; inversion H0; subst. rewrite !listed_collect in *. clear H H0. split.
  - intros d w l c1 HM N. rewrite !in_app_iff. split; intros [HI|HI]; try (exact (False_ind _ (checked_old _ _ _ _ _ _ HI HM))); left.
    + destruct (P2 d HI) as [Q|(w1 & a & v & q & Q1 & _ & ->)]; [auto|]. cbn [dMsg] in HM. inversion HM; subst. exfalso. apply N. apply boundTo_bound. eauto.
    + destruct (P1 d HI) as [Q|(w1 & a & v & l1 & c2 & l' & c' & -> & Q & _)]; [auto|]. cbn [dMsg] in HM. inversion HM; subst. exfalso. apply N. apply boundTo_bound. eauto.
  - intros w v q B1 B2 B3. cbn [env put] in B3. apply boundTo_bound in B3 as [z B3]. destruct (P3 w v q) as [a Ha]; auto; [unfold boundTo in B3; congruence|].
    exists a. apply in_or_app. now left.
Qed.

(** A source accepted in one environment is accepted in every larger one, with the same tree and
    the same definitions, unless the larger one binds a name that the source defines. *)
Theorem C101_larger : forall X s e e' rules p, decodable s -> envOk e -> envOk e' -> clean X s e (NCDDL zeroPos rules) p -> extends e e' ->
  (forall w, bound (env p) w -> ~ bound e w -> ~ bound e' w) -> (forall w, bound e' w -> ~ bound e w -> hd 0 w <> 36) ->
  exists defs p', env p = e ++ defs /\ clean X s e' (NCDDL zeroPos rules) p' /\ env p' = e' ++ defs.
Proof.
  intros X s e e' rules p D EO EO' C EX ND NS.
  destruct (accepted_inv _ _ _ _ _ D C) as (ta0 & ea0 & ka0 & ra0 & df & ? & ER & _ & _ & _ & _ & EA & _ & _ & _). injection ER as <-.
  destruct (proj1 (C17_accepts_iff X s e rules df D EO) (ex_intro _ p (conj C EA))) as (ts & eof & tk & t2 & l2 & TS & S2 & R2 & F & N & KA).
  exists df. assert (NN : NoDup (names (e' ++ df))).
  { rewrite names_app in *. assert (N2 : NoDup (names df)) by (clear - N; induction (names e) as [|x l IH]; auto; inversion N; auto).
    assert (DJ : forall w, In w (names df) -> ~ In w (names e')).
    { intros w Hw. apply ND; [rewrite EA; unfold bound; rewrite names_app; apply in_or_app; now right|].
      unfold bound. intros Hb. clear - N Hw Hb. induction (names e) as [|x l IH]; [contradiction|]. inversion N; subst. destruct Hb as [->|Hb]; [apply H1; apply in_or_app; now right|auto]. }
    destruct EO' as [N1 _]. clear - N1 N2 DJ. induction (names e') as [|x l IH]; auto. cbn [app]. inversion N1; subst. constructor.
    - intros Hx. apply in_app_or in Hx as [Hx|Hx]; [contradiction|]. apply (DJ _ Hx). now left.
    - apply IH; auto. intros w Hw Hl. apply (DJ w Hw). now right. }
  assert (EXT : forall w v, boundTo (e ++ df) w v -> boundTo (e' ++ df) w v).
  { intros w v HB. unfold boundTo in *.
    assert (AP : forall a b, assoc w (a ++ b) = match assoc w a with Some y => Some y | None => assoc w b end) by (clear; intros a b; induction a as [|[x y] a IH]; cbn [assoc app]; auto; destruct (beq x w); auto).
    rewrite AP in HB |- *. destruct (assoc w e) as [y|] eqn:E1.
    - injection HB as <-. apply EX in E1. unfold boundTo in E1. rewrite E1. reflexivity.
    - destruct (assoc w e') as [y|] eqn:E2; auto. exfalso. apply (ND w).
      + rewrite EA. apply boundTo_bound. exists v. unfold boundTo. rewrite AP, E1. exact HB.
      + rewrite boundTo_bound. unfold boundTo. rewrite E1. intros [? ?]. discriminate.
      + apply boundTo_bound. unfold boundTo. eauto. }
  assert (EXB : forall w, bound (e ++ df) w -> bound (e' ++ df) w) by (intros w HB; apply boundTo_bound in HB as [v HB]; apply boundTo_bound; eauto).
  assert (KA' : Forall (CheckOk (e' ++ df)) tk).
  { pose proof (file_closed _ _ _ _ _ _ F) as CL. rewrite Forall_forall in KA |- *. intros t Ht. pose proof (KA t Ht) as Kt.
    assert (UB : forall i, known tk i -> ~ bound (e ++ df) (iName i) -> ~ bound (e' ++ df) (iName i)).
    { intros i [K1|[q K1]] NB B.
      - unfold bound in B, NB. rewrite names_app in *. rewrite in_app_iff in *. destruct B as [B|B]; [|tauto]. apply (NS (iName i)); auto.
      - apply KA in K1. inversion K1; subst. contradiction. }
    inversion Kt; subst.
    - apply Ck_exists. auto.
    - eapply Ck_int; eauto.
    - eapply Ck_float; eauto.
    - now apply Ck_other.
    - destruct (CL _ _ _ Ht) as [K1 K2]. apply Ck_unbound; auto.
    - eapply Ck_same; eauto. }
  destruct (proj2 (C17_accepts_iff X s e' rules df D EO')) as (p' & C' & E'); [exists ts, eof, tk, t2, l2; split; [exact TS|]; split; [exact S2|]; split; [exact R2|]; split; [exact F|]; split; [exact NN|exact KA']|].
  exists p'. auto.
Qed.

(** ** Examples *)

Definition before : bytes := lines ["y = { a: int }"; "z = 3"].
Definition line : bytes := lines ["x = [* y]"; "x = w"; "z = y"; "v = 2..z"; "u ="].

(** The environment after the lines [before]. *)
Definition env1 : environment := Eval vm_compute in match parse X0 before with Ok (_, q) => env q | _ => [] end.

(** The same lines in an empty environment and in one that binds [y] and [z]. *)
Example C101_ex : decodable line /\ exists root ds0 p0 ds p,
  (exists r q, clean X0 before [] r q /\ env q = env1) /\ (forall w v, boundTo env1 w v -> exists q, node_start v = Ok q) /\
  parseSource X0 (parseFuel line) line [] = Ok ((Some root, Some ds0), p0) /\ parseSource X0 (parseFuel line) line env1 = Ok ((Some root, Some ds), p) /\
  map dMsg ds0 = [MExisting (str "x") 1 5; MUnexpectedAt EOF 6 1; MNotExist (str "y"); MNotExist (str "w"); MNotExist (str "y"); MIntUpper] /\
  map dMsg ds = [MExisting (str "x") 1 5; MExisting (str "z") 2 5; MUnexpectedAt EOF 6 1; MNotExist (str "w")] /\
  names (env p0) = [str "x"; str "z"; str "v"] /\ names (env p) = [str "y"; str "z"; str "x"; str "v"].
Proof.
  split; [now apply good_by_ascii|]. do 5 eexists. split; [do 2 eexists; split; [vm_compute; reflexivity|reflexivity]|].
  split; [|split; [vm_compute; reflexivity|split; [vm_compute; reflexivity|split; [reflexivity|split; [reflexivity|split; reflexivity]]]]].
  intros w v H. unfold boundTo, env1 in H. cbn [assoc] in H. destruct (beq _ w) in H; [injection H as <-; eexists; reflexivity|].
  destruct (beq _ w) in H; [injection H as <-; eexists; reflexivity|discriminate].
Qed.

(** An accepted source and a larger environment. *)
Example C101_ex_larger : exists s rules p e', decodable s /\ envOk [] /\ envOk e' /\ clean X0 s [] (NCDDL zeroPos rules) p /\ extends [] e' /\
  (forall w, bound (env p) w -> ~ bound [] w -> ~ bound e' w) /\ (forall w, bound e' w -> ~ bound [] w -> hd 0 w <> 36) /\ length e' = 2%nat /\ length rules = 2%nat.
Proof.
  exists (lines ["a = 1"; "b = [* a]"]). do 2 eexists. exists env1.
  split; [now apply good_by_ascii|]. split; [split; constructor|].
  split; [vm_compute; split; [repeat constructor; cbn; intuition discriminate|repeat constructor; discriminate]|]. split; [vm_compute; reflexivity|].
  split; [intros w v H; discriminate H|]. split; [|split; [|split; reflexivity]].
  - intros w [<-|[<-|[]]] _ H; vm_compute in H; intuition discriminate.
  - intros w H _. vm_compute in H. destruct H as [<-|[<-|[]]]; discriminate.
Qed.

(** Names that begin with a dollar sign need not be defined; defining one can make an accepted source faulty. *)
Theorem C101_socket_refuted : exists s rules p e', decodable s /\ envOk e' /\ clean X0 s [] (NCDDL zeroPos rules) p /\ extends [] e' /\
  (forall w, bound (env p) w -> ~ bound e' w) /\ ~ exists t p', clean X0 s e' t p'.
Proof.
  exists (lines ["r = $a .. $b"]). do 2 eexists. exists [(str "$a", NIntegerLiteral zeroPos INT 1)]. split; [now apply good_by_ascii|].
  split; [split; [constructor; [intros []|constructor]|constructor; [now vm_compute|constructor]]|]. split; [vm_compute; reflexivity|]. split; [intros w v H; discriminate H|].
  split; [intros w [<-|[]] [H|[]]; discriminate|]. intros (t & p' & H). vm_compute in H. discriminate.
Qed.

(** A parse that ends in one environment need not end in an empty one. *)
Theorem C101_ends_refuted : exists s e root ds p, decodable s /\ envOk e /\ (forall w v, boundTo e w v -> exists q, node_start v = Ok q) /\
  parseSource X0 (parseFuel s) s e = Ok ((root, ds), p) /\ parseSource X0 (parseFuel s) s [] = Panic.
Proof.
  exists (lines ["x = uint .le 7"; "x = 1"]), [(str "x", NIntegerLiteral zeroPos INT 1)]. do 3 eexists. split; [now apply good_by_ascii|].
  split; [split; [constructor; [intros []|constructor]|constructor; [now vm_compute|constructor]]|]. split; [|split; vm_compute; reflexivity].
  intros w v H. unfold boundTo in H. cbn [assoc] in H. destruct (beq _ w) in H; [injection H as <-; eexists; reflexivity|discriminate].
Qed.
