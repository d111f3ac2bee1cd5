(** Property C106: running generate a second time. It changes nothing, unless the first run
    made a directory that looks like a source or a file that looks like a configuration. *)
From Coq Require Import String.
From Verif Require Import Base Token Ext Lexer Ast Diag Parser ParseSource Codegen Cli CliProofs LexWords Repl
  Props_Lexer Props_Report Props_Cli Props_Project.
Open Scope string_scope.
Open Scope list_scope.
Open Scope Z_scope.

(** ** Specification *)

(** Whatever exists lies in a directory. *)
Definition Rooted (f : fs) : Prop := forall p n, look f (p ++ [n]) <> None -> look f p = Some EDir.

(** No file or directory named *.cddl was made. *)
Definition noNewSource (f g : fs) : Prop := forall q, sourcePath q -> look g q <> None -> look f q <> None.

(** Nothing named cddlc.* was made in the directory. *)
Definition noNewConfig (cwd : path) (f g : fs) : Prop := forall n, look g (cwd ++ [str "cddlc." ++ n]) <> None -> look f (cwd ++ [str "cddlc." ++ n]) <> None.

(** ** Kinds of entries *)

Definition path_dec : forall p q : path, {p = q} + {p <> q} := list_eq_dec (list_eq_dec Z.eq_dec).

Definition goPath (q : path) : Prop := exists d stem, q = d ++ [stem ++ str ".go"].

Definition kof (f : fs) (q : path) : option bool := match look f q with Some EDir => Some true | Some (EFile _) => Some false | None => None end.

(** Entries keep their kind, and their text unless they are named *.go. *)
Definition grows (f g : fs) : Prop := forall q e, look f q = Some e -> kof g q = kof f q /\ (goPath q \/ look g q = Some e).

Lemma grows_refl : forall f, grows f f.
Proof. intros f q e H. auto. Qed.

Lemma grows_trans : forall f g h, grows f g -> grows g h -> grows f h.
Proof.
  intros f g h A B q e H. destruct (A q e H) as [K1 L1]. assert (E : exists e', look g q = Some e').
  { unfold kof in K1. rewrite H in K1. destruct (look g q); eauto. destruct e; discriminate. }
  destruct E as [e' E]. destruct (B q e' E) as [K2 L2]. split; [congruence|]. destruct L1 as [L1|L1]; auto. assert (e' = e) by congruence. subst e'. exact L2.
Qed.

Lemma kof_dir : forall f q, kof f q = Some true <-> look f q = Some EDir.
Proof. intros f q. unfold kof. destruct (look f q) as [[?|]|]; split; congruence. Qed.
Lemma kof_none : forall f q, kof f q = None <-> look f q = None.
Proof. intros f q. unfold kof. destruct (look f q) as [[?|]|]; split; congruence. Qed.
Lemma kof_file : forall f q, kof f q = Some false <-> exists c, look f q = Some (EFile c).
Proof. intros f q. unfold kof. destruct (look f q) as [[c|]|]; split; try congruence; eauto; intros [? ?]; congruence. Qed.

Lemma rooted_kinds : forall f g, (forall q, kof g q = kof f q) -> Rooted f -> Rooted g.
Proof.
  intros f g K R p n H. apply kof_dir. rewrite K. apply kof_dir. apply (R p n). intros E. apply H. apply kof_none. rewrite K. now apply kof_none.
Qed.

Lemma rooted_prefix : forall f r a c, Rooted f -> look f (a ++ c :: r) <> None -> look f a = Some EDir.
Proof.
  intros f r. induction r as [|x r IH] using rev_ind; intros a c R H; [now apply (R a c)|].
  apply (IH a c R). rewrite (R (a ++ c :: r) x); [discriminate|]. rewrite <- app_assoc. exact H.
Qed.

Lemma unblocked : forall f p, Rooted f -> look f p <> None -> blocked f p = false.
Proof.
  intros f p R. unfold blocked. change p with ([] ++ p) at 1. generalize (@nil bytes) as pre. induction p as [|c r IH]; intros pre H; cbn [blockedAt]; auto.
  rewrite (rooted_prefix f r pre c R H). apply IH. rewrite <- app_assoc. exact H.
Qed.

Lemma rooted_new : forall f p n e, Rooted f -> look f p = Some EDir -> look f (p ++ [n]) = None -> Rooted (set f (p ++ [n]) e).
Proof.
  intros f p n e R D N a m H. destruct (path_dec (a ++ [m]) (p ++ [n])) as [E|E].
  - apply app_inj_tail in E as [-> ->]. rewrite look_other; auto. intros E. apply (f_equal (@length _)) in E. rewrite app_length in E. cbn in E. lia.
  - rewrite look_other in H by auto. pose proof (R _ _ H) as K. rewrite look_other; auto. congruence.
Qed.

Lemma kof_set : forall f p e q, p <> [] -> kof (set f p e) q = if path_dec q p then Some (match e with EDir => true | EFile _ => false end) else kof f q.
Proof.
  intros f p e q N. destruct (path_dec q p) as [->|D]; unfold kof; [rewrite look_same by auto; now destruct e|now rewrite look_other].
Qed.

Lemma grows_new : forall f p e, look f p = None -> grows f (set f p e).
Proof.
  intros f p e N q d H. assert (D : q <> p) by congruence. unfold kof. rewrite look_other by auto. auto.
Qed.

Lemma mkdir_step : forall O rest f pre g b, Rooted f -> look f pre = Some EDir -> mkdirFrom O f pre rest = (g, b) ->
  Rooted g /\ grows f g /\ (b = true -> look g (pre ++ rest) = Some EDir).
Proof.
  intros O. induction rest as [|c r IH]; intros f pre g b R D H; cbn [mkdirFrom] in H.
  - inversion H; subst. rewrite app_nil_r. auto using grows_refl.
  - replace (pre ++ c :: r) with ((pre ++ [c]) ++ r) by now rewrite <- app_assoc.
    destruct (look f (pre ++ [c])) as [[?|]|] eqn:L.
    + inversion H; subst. split; auto. split; [apply grows_refl|discriminate].
    + now apply (IH f).
    + destruct (oMkdir O (pre ++ [c])); [inversion H; subst; split; auto; split; [apply grows_refl|discriminate]|].
      destruct (IH (set f (pre ++ [c]) EDir) (pre ++ [c]) g b) as (A & B & E); auto; [now apply rooted_new|apply look_same; destruct pre; discriminate|].
      split; auto. split; auto. eapply grows_trans; [|exact B]. now apply grows_new.
Qed.

Lemma open_step : forall O f p g, Rooted f -> goPath p -> openWrite O true f p = Some g ->
  Rooted g /\ grows f g /\ look g p = Some (EFile []) /\ oOpen O p = false.
Proof.
  intros O f p g R (d & stem & ->) H. set (n := stem ++ str ".go") in *. assert (NE : d ++ [n] <> []) by (destruct d; discriminate).
  pose proof (openWrite_trunc _ _ _ _ H) as [T _]. unfold openWrite in H. destruct (oOpen O (d ++ [n])); [discriminate|]. cbn [orb] in H. destruct (blocked f (d ++ [n])); [discriminate|].
  split; [|split; [|auto]].
  - destruct (look f (d ++ [n])) as [[c|]|] eqn:L; try discriminate.
    + inversion H; subst. apply (rooted_kinds f); auto. intros q. rewrite kof_set by auto. destruct (path_dec q _) as [->|]; auto. unfold kof. now rewrite L.
    + rewrite removelast_last in H. destruct (look f d) as [[?|]|] eqn:LD; inversion H; subst. now apply rooted_new.
  - intros q e L. destruct (path_dec q (d ++ [n])) as [->|D].
    + split; [|left; exists d, stem; reflexivity]. unfold kof. rewrite T, L. rewrite L in H. destruct e; [auto|discriminate].
    + assert (E : look g q = look f q). { destruct (look f (d ++ [n])) as [[c|]|]; try discriminate; [inversion H; subst; now apply look_other|]. rewrite removelast_last in H. destruct (look f d) as [[?|]|]; inversion H; subst. now apply look_other. }
      unfold kof. rewrite E, L. auto.
Qed.

(** A successful generateFile, spelled out. *)
Lemma file_success : forall X C O pkg src out f g o, generateFile X C O pkg src out f = (g, o, Success) ->
  exists s f1 text, o = [] /\ readFile O f src = Some s /\ openWrite O true f out = Some f1 /\ look g out = Some (EFile text) /\ (forall q, q <> out -> look g q = look f1 q) /\
  forall h h1, readFile O h src = Some s -> openWrite O true h out = Some h1 -> exists g', generateFile X C O pkg src out h = (g', [], Success) /\
    look g' out = Some (EFile text) /\ forall q, q <> out -> look g' q = look h1 q.
Proof.
  intros X C O pkg src out f g o H. unfold generateFile in H. destruct (readFile O f src) as [s|] eqn:R; [|discriminate].
  destruct (openWrite O true f out) as [f1|] eqn:W; [|discriminate]. destruct (parse X s) as [[[t [ds|]] p]| | |] eqn:P; try discriminate.
  { destruct (errorStringer C s ds); discriminate. }
  destruct (visit (cGen C) (rootNode t) (newGenerator pkg)) as [G| | |] eqn:V; try discriminate. destruct (oWrite O out) eqn:OW; [discriminate|]. inversion H; subst g o.
  assert (K : forall h h1 a b, openWrite O true h out = Some h1 -> look (append (append h1 out a) out b) out = Some (EFile (a ++ b)) /\ forall q, q <> out -> look (append (append h1 out a) out b) q = look h1 q).
  { intros h h1 a b E. destruct (openWrite_trunc _ _ _ _ E) as [T _]. assert (N : out <> []) by (intros ->; rewrite openWrite_root in E; discriminate). split.
    - now rewrite (append_same _ _ b a) by (auto; apply (append_same _ _ a []); auto).
    - intros q D. now rewrite !append_other. }
  destruct (K f f1 (header (cArgs C)) (cFormat C (gPkg (genString (cGen C) G)) (gDecls (genString (cGen C) G))) W) as [K1 K2].
  exists s, f1. eexists. split; [reflexivity|]. split; [reflexivity|]. split; [reflexivity|]. split; [exact K1|]. split; [exact K2|].
  intros h h1 R' W'. destruct (K h h1 (header (cArgs C)) (cFormat C (gPkg (genString (cGen C) G)) (gDecls (genString (cGen C) G))) W') as [J1 J2].
  eexists. split; [|split; [exact J1|exact J2]]. unfold generateFile. rewrite R', W', P, V, OW. reflexivity.
Qed.

Lemma file_step : forall X C O pkg src out f g o, Rooted f -> goPath out -> generateFile X C O pkg src out f = (g, o, Success) -> Rooted g /\ grows f g /\ o = [].
Proof.
  intros X C O pkg src out f g o R GP H. destruct (file_success _ _ _ _ _ _ _ _ _ H) as (s & f1 & text & -> & _ & W & T & D & _).
  destruct (open_step _ _ _ _ R GP W) as (R1 & G1 & L1 & _).
  assert (K : forall q, kof g q = kof f1 q).
  { intros q. destruct (path_dec q out) as [->|N]; unfold kof; [now rewrite T, L1|now rewrite D]. }
  split; [now apply (rooted_kinds f1)|]. split; auto. apply (grows_trans f f1 g G1). intros q e L. split; auto.
  destruct (path_dec q out) as [->|N]; auto. right. now rewrite D.
Qed.

Lemma ensure_step : forall O f cwd dir g, Rooted f -> ensureOut O f cwd dir = (g, None) -> Rooted g /\ grows f g /\
  exists p, pathOf cwd dir = Some p /\ oStat O p = false /\ ((look g p = Some EDir) \/ (g = f /\ dirOnly dir = false /\ exists c, look f p = Some (EFile c))).
Proof.
  intros O f cwd dir g R H. unfold ensureOut, stat, mkdirAll in H. destruct (pathOf cwd dir) as [p|]; [|discriminate].
  unfold statP in H. destruct (oStat O p) eqn:OS; [discriminate|]. cbn [orb] in H. destruct (blocked f p); [discriminate|].
  destruct (look f p) as [[c|]|] eqn:L.
  - destruct (dirOnly dir) eqn:D; [discriminate|]. inversion H; subst. split; auto. split; [apply grows_refl|]. exists p. split; auto. split; auto. right. eauto.
  - inversion H; subst. split; auto. split; [apply grows_refl|]. exists p. auto.
  - destruct (mkdirFrom O f [] p) as [g' b] eqn:M. destruct b; inversion H; subst. destruct (mkdir_step O p f [] g true R (look_root f) M) as (A & B & E). split; auto. split; auto. exists p. auto.
Qed.

Lemma go_out : forall dir n, beq (ext n) (str ".cddl") = true -> goPath (dir ++ [outName n]).
Proof. intros dir n E. apply ext_iff in E as [st ->]. rewrite outName_stem. exists dir, st. reflexivity. Qed.

Lemma source_not_go : forall q, sourcePath q -> ~ goPath q.
Proof. intros q (d & s & ->) (d' & s' & E). apply app_inj_tail in E as [_ E]. symmetry in E. exact (suffix_differs _ _ E). Qed.

Lemma files_step : forall X C O cwd b dir l f g o, Rooted f -> generateFiles X C O cwd b dir l f = (g, o, Success) -> Rooted g /\ grows f g /\ o = [].
Proof.
  intros X C O cwd b dir. induction l as [|n l IH]; intros f g o R H; cbn [generateFiles] in H.
  - inversion H; subst. auto using grows_refl.
  - destruct (beq (ext n) (str ".cddl")) eqn:E; cbn [negb] in H; [|now apply IH].
    destruct (ensureOut O f cwd (bOut b)) as [f1 [e|]] eqn:EN; [discriminate|]. destruct (ensure_step _ _ _ _ _ R EN) as (R1 & G1 & p & P & _). rewrite P in H.
    destruct (generateFile X C O (bPackage b) (dir ++ [n]) (p ++ [outName n]) f1) as [[f2 o2] oc] eqn:GF. destruct oc; try discriminate.
    destruct (file_step _ _ _ _ _ _ _ _ _ R1 (go_out p n E) GF) as (R2 & G2 & ->).
    destruct (generateFiles X C O cwd b dir l f2) as [[f3 o3] oc3] eqn:GS. inversion H; subst. destruct (IH _ _ _ R2 GS) as (R3 & G3 & ->).
    split; auto. split; auto. eauto using grows_trans.
Qed.

Lemma build_step : forall X C O cwd b f g o, Rooted f -> generateBuild X C O cwd b f = (g, o, Success) -> Rooted g /\ grows f g /\ o = [].
Proof.
  intros X C O cwd [b|] f g o R H; cbn [generateBuild] in H; [|discriminate]. destruct (stat O f cwd (bSource b)); try discriminate.
  destruct (pathOf cwd (bSource b)); [|discriminate]. destruct (readDir O f p); [|discriminate]. eapply files_step; eauto.
Qed.

Lemma builds_step : forall X C O cwd l f g o, Rooted f -> generateBuilds X C O cwd l f = (g, o, Success) -> Rooted g /\ grows f g /\ o = [].
Proof.
  intros X C O cwd. induction l as [|b l IH]; intros f g o R H; cbn [generateBuilds] in H.
  - inversion H; subst. auto using grows_refl.
  - destruct (generateBuild X C O cwd b f) as [[f1 o1] oc] eqn:B. destruct oc; try discriminate. destruct (build_step _ _ _ _ _ _ _ _ R B) as (R1 & G1 & ->).
    destruct (generateBuilds X C O cwd l f1) as [[f2 o2] oc2] eqn:BS. inversion H; subst. destruct (IH _ _ _ R1 BS) as (R2 & G2 & ->). split; auto. split; auto. eauto using grows_trans.
Qed.

(** ** The second run *)

Section again.
Variable G : fs.
Hypothesis RG : Rooted G.

(** [f] is a state of the first run, which ends with [G]; [h] is that of the second. *)
Record Inv (f h : fs) : Prop := mkInv {
  iRoot : Rooted f;
  iNew : noNewSource f G;
  iKind : forall q, kof h q = kof G q;
  iEither : forall q, look h q = look f q \/ look h q = look G q;
  iSource : forall q, sourcePath q -> look h q = look G q
}.

Lemma hRooted : forall f h, Inv f h -> Rooted h.
Proof. intros f h I. apply (rooted_kinds G); auto. apply (iKind _ _ I). Qed.

Lemma moves : forall f g h, Inv f h -> Rooted g -> grows f g -> grows g G -> (forall q, look g q = look f q \/ look f q = None) -> Inv g h.
Proof.
  intros f g h I R GR GG K. constructor; auto; try apply I.
  - intros q S N E. apply (iNew _ _ I q S N). destruct (K q); congruence.
  - intros q. destruct (iEither _ _ I q) as [E|E]; auto. destruct (K q) as [K1|K1]; [left; congruence|]. right. rewrite E, K1. symmetry. apply kof_none. rewrite <- (iKind _ _ I q). apply kof_none. congruence.
Qed.

Lemma again_ensure : forall O f h cwd dir f1, Inv f h -> ensureOut O f cwd dir = (f1, None) -> grows f1 G -> ensureOut O h cwd dir = (h, None) /\ Inv f1 h.
Proof.
  intros O f h cwd dir f1 I H GG. destruct (ensure_step _ _ _ _ _ (iRoot _ _ I) H) as (R1 & G1 & p & P & OS & L).
  assert (K : kof h p = kof f1 p).
  { rewrite (iKind _ _ I). assert (EX : exists e, look f1 p = Some e) by (destruct L as [L|(-> & _ & c & L)]; eauto). destruct EX as [e EX]. now destruct (GG p e EX). }
  split.
  - unfold ensureOut, stat. rewrite P. unfold statP. rewrite OS. cbn [orb].
    assert (B : blocked h p = false).
    { apply unblocked; [eapply hRooted; eauto|]. intros N. apply kof_none in N. rewrite K in N. apply kof_none in N. destruct L as [L|(-> & _ & c & L)]; congruence. }
    rewrite B. destruct L as [L|(-> & D & c & L)].
    + apply kof_dir in L. rewrite <- K in L. apply kof_dir in L. now rewrite L.
    + assert (L' : kof h p = Some false) by (rewrite K; apply kof_file; eauto). apply kof_file in L' as [c' L']. now rewrite L', D.
  - apply (moves f); auto. intros q. unfold ensureOut in H. destruct (look f q) as [e|] eqn:E; auto. left.
    destruct (stat O f cwd dir); try (inversion H; subst; auto; fail). destruct (mkdirAll O f cwd dir) as [g' b] eqn:M. destruct b; inversion H; subst. unfold mkdirAll in M. rewrite P in M.
    clear - M E. revert M. generalize (@nil bytes) as pre. revert f E. induction p as [|c r IH]; intros f E pre M; cbn [mkdirFrom] in M; [inversion M; subst; auto|].
    destruct (look f (pre ++ [c])) as [[?|]|] eqn:L; try discriminate; [now apply (IH f E (pre ++ [c]))|]. destruct (oMkdir O (pre ++ [c])); [discriminate|].
    apply (IH (set f (pre ++ [c]) EDir)) in M; auto. rewrite look_other; auto. congruence.
Qed.

Lemma again_file : forall X C O pkg src out f h g o, Inv f h -> sourcePath src -> goPath out -> generateFile X C O pkg src out f = (g, o, Success) -> grows g G ->
  exists h', generateFile X C O pkg src out h = (h', [], Success) /\ Inv g h'.
Proof.
  intros X C O pkg src out f h g o I SP GP H GG. destruct (file_step _ _ _ _ _ _ _ _ _ (iRoot _ _ I) GP H) as (R1 & G1 & ->).
  destruct (file_success _ _ _ _ _ _ _ _ _ H) as (s & f1 & text & _ & R & W & T & D & Again). pose proof (hRooted _ _ I) as RH.
  assert (R' : readFile O h src = Some s).
  { unfold readFile in *. destruct (oRead O src); [discriminate|]. cbn [orb] in *. destruct (blocked f src); [discriminate|]. destruct (look f src) as [[c|]|] eqn:L; inversion R; subst c.
    destruct (G1 src _ L) as [_ [Q|L1]]; [destruct (source_not_go _ SP Q)|]. destruct (GG src _ L1) as [_ [Q|L2]]; [destruct (source_not_go _ SP Q)|].
    rewrite <- (iSource _ _ I src SP) in L2. rewrite (unblocked h src RH) by congruence. now rewrite L2. }
  destruct (open_step _ _ _ _ (iRoot _ _ I) GP W) as (_ & G0 & _ & OO).
  assert (KO : kof h out = Some false). { rewrite (iKind _ _ I). destruct (GG out _ T) as [-> _]. apply kof_file. eauto. }
  assert (W' : openWrite O true h out = Some (set h out (EFile []))).
  { apply kof_file in KO as [c KO]. unfold openWrite. rewrite OO, KO. rewrite (unblocked h out RH) by congruence. reflexivity. }
  destruct (Again h _ R' W') as (h' & E & T' & D'). exists h'. split; auto.
  assert (NO : out <> []) by (destruct GP as (d & st & ->); destruct d; discriminate).
  assert (DF : forall q, q <> out -> look f1 q = look f q) by (intros q N; eapply openWrite_other; eauto).
  constructor; auto.
  - intros q S N. destruct (look f q) as [e|] eqn:L; [|destruct (iNew _ _ I q S N L)]. destruct (G1 q e L) as [K _]. intros Q. apply kof_none in Q. rewrite Q in K. unfold kof in K. rewrite L in K. destruct e; discriminate.
  - intros q. destruct (path_dec q out) as [->|N].
    + rewrite <- (iKind _ _ I), KO. apply kof_file. eauto.
    + rewrite <- (iKind _ _ I). unfold kof. now rewrite D', look_other by auto.
  - intros q. destruct (path_dec q out) as [->|N]; [left; congruence|]. rewrite D', look_other, D, DF by auto. apply (iEither _ _ I).
  - intros q S. assert (N : q <> out) by (intros ->; exact (source_not_go _ S GP)). rewrite D', look_other by auto. now apply (iSource _ _ I).
Qed.

Lemma again_files : forall X C O cwd b dir l f h g o, Inv f h -> generateFiles X C O cwd b dir l f = (g, o, Success) -> grows g G ->
  exists h', generateFiles X C O cwd b dir l h = (h', [], Success) /\ Inv g h'.
Proof.
  intros X C O cwd b dir. induction l as [|n l IH]; intros f h g o I H GG; cbn [generateFiles] in *.
  - inversion H; subst. eauto.
  - destruct (beq (ext n) (str ".cddl")) eqn:E; cbn [negb] in *; [|eapply IH; eauto].
    destruct (ensureOut O f cwd (bOut b)) as [f1 [e|]] eqn:EN; [discriminate|]. destruct (ensure_step _ _ _ _ _ (iRoot _ _ I) EN) as (R1 & G1 & p & P & _). rewrite P in *.
    destruct (generateFile X C O (bPackage b) (dir ++ [n]) (p ++ [outName n]) f1) as [[f2 o2] oc] eqn:GF. destruct oc; try discriminate.
    destruct (file_step _ _ _ _ _ _ _ _ _ R1 (go_out p n E) GF) as (R2 & G2 & _).
    destruct (generateFiles X C O cwd b dir l f2) as [[f3 o3] oc3] eqn:GS. inversion H; subst. destruct (files_step _ _ _ _ _ _ _ _ _ _ R2 GS) as (R3 & G3 & _).
    destruct (again_ensure _ _ _ _ _ _ I EN) as [-> I1]; [eauto using grows_trans|].
    assert (SP : sourcePath (dir ++ [n])) by (apply ext_iff in E as [st ->]; exists dir, st; reflexivity).
    destruct (again_file _ _ _ _ _ _ _ _ _ _ I1 SP (go_out p n E) GF) as (h2 & -> & I2); [eauto using grows_trans|].
    destruct (IH _ _ _ _ I2 GS GG) as (h3 & -> & I3). exists h3. auto.
Qed.

Lemma files_filter : forall X C O cwd b dir l f, generateFiles X C O cwd b dir l f = generateFiles X C O cwd b dir (filter (fun n => beq (ext n) (str ".cddl")) l) f.
Proof.
  intros X C O cwd b dir. induction l as [|n l IH]; intros f; cbn [filter]; auto. destruct (beq (ext n) (str ".cddl")) eqn:E; cbn [generateFiles]; rewrite E; cbn [negb]; auto.
  destruct (ensureOut O f cwd (bOut b)) as [f1 [e|]]; auto. destruct (pathOf cwd (bOut b)); auto. destruct (generateFile _ _ _ _ _ _ _) as [[f2 o2] oc]; destruct oc; auto. now rewrite IH.
Qed.

Lemma filter_ordered : forall (P : bytes -> bool) l, Ordered l -> Ordered (filter P l).
Proof.
  intros P l H. induction H as [|n l F O IH]; cbn [filter]; [constructor|]. destruct (P n); auto. constructor; auto. rewrite Forall_forall in *. intros m HM. apply filter_In in HM as [HM _]. auto.
Qed.

Lemma again_dir : forall f h p, Inv f h -> grows f G -> look f p = Some EDir -> blocked h p = false /\ look h p = Some EDir.
Proof.
  intros f h p I GG L. assert (L' : look h p = Some EDir). { apply kof_dir. rewrite (iKind _ _ I). destruct (GG p _ L) as [-> _]. now apply kof_dir. }
  split; auto. apply unblocked; [eapply hRooted; eauto|congruence].
Qed.

Lemma again_build : forall X C O cwd b f h g o, Inv f h -> generateBuild X C O cwd b f = (g, o, Success) -> grows g G ->
  exists h', generateBuild X C O cwd b h = (h', [], Success) /\ Inv g h'.
Proof.
  intros X C O cwd b f h g o I H GG. destruct (build_step _ _ _ _ _ _ _ _ (iRoot _ _ I) H) as (_ & G1 & _). assert (GF : grows f G) by eauto using grows_trans.
  destruct b as [b|]; cbn [generateBuild] in *; [|discriminate]. unfold stat in *. destruct (pathOf cwd (bSource b)) as [dir|]; [|discriminate].
  unfold statP, readDir in *. destruct (oStat O dir); [discriminate|]. cbn [orb] in *. destruct (blocked f dir); [discriminate|]. destruct (look f dir) as [[?|]|] eqn:L; [destruct (dirOnly (bSource b)); discriminate| |discriminate].
  destruct (again_dir _ _ _ I GF L) as [B L']. rewrite B, L'. destruct (oList O dir); [discriminate|]. cbn [orb] in *.
  assert (E : filter (fun n => beq (ext n) (str ".cddl")) (names h dir) = filter (fun n => beq (ext n) (str ".cddl")) (names f dir)).
  { apply ordered_same; try (apply filter_ordered, names_ordered). intros n. rewrite !filter_In, !names_in. split; intros [N EX]; split; auto.
    - apply ext_iff in EX as [st ->]. assert (SP : sourcePath (dir ++ [st ++ str ".cddl"])) by (exists dir, st; reflexivity). apply (iNew _ _ I _ SP). now rewrite <- (iSource _ _ I _ SP).
    - intros Q. apply kof_none in Q. rewrite (iKind _ _ I) in Q. destruct (look f (dir ++ [n])) as [e|] eqn:LF; [|congruence]. destruct (GF _ _ LF) as [K _]. rewrite Q in K. unfold kof in K. rewrite LF in K. destruct e; discriminate. }
  rewrite files_filter, E, <- files_filter. eapply again_files; eauto.
Qed.

Lemma again_builds : forall X C O cwd l f h g o, Inv f h -> generateBuilds X C O cwd l f = (g, o, Success) -> grows g G ->
  exists h', generateBuilds X C O cwd l h = (h', [], Success) /\ Inv g h'.
Proof.
  intros X C O cwd. induction l as [|b l IH]; intros f h g o I H GG; cbn [generateBuilds] in *.
  - inversion H; subst. eauto.
  - destruct (generateBuild X C O cwd b f) as [[f1 o1] oc] eqn:B. destruct oc; try discriminate. destruct (build_step _ _ _ _ _ _ _ _ (iRoot _ _ I) B) as (R1 & G1 & _).
    destruct (generateBuilds X C O cwd l f1) as [[f2 o2] oc2] eqn:BS. inversion H; subst. destruct (builds_step _ _ _ _ _ _ _ _ R1 BS) as (_ & G2 & _).
    destruct (again_build _ _ _ _ _ _ _ _ _ I B) as (h1 & -> & I1); [eauto using grows_trans|]. destruct (IH _ _ _ _ I1 BS GG) as (h2 & -> & I2). exists h2. auto.
Qed.
End again.

Lemma config_again : forall C O f g cwd c, Rooted f -> Rooted g -> grows f g -> look f cwd = Some EDir -> noNewConfig cwd f g -> existsb hasMeta cwd = false ->
  loadConfigFromDir C O f cwd = inr c -> loadConfigFromDir C O g cwd = inr c.
Proof.
  intros C O f g cwd c RF RG GG D NC M H. assert (DG : look g cwd = Some EDir). { apply kof_dir. destruct (GG cwd _ D) as [-> _]. now apply kof_dir. }
  assert (E : globConfig C O g cwd = globConfig C O f cwd).
  { unfold globConfig, statP, readDir. rewrite M, D, DG, !(unblocked _ cwd) by (auto; congruence). destruct (oStat O cwd || false); auto. destruct (oList O cwd || false); auto.
    do 2 f_equal. apply ordered_same; try (apply filter_ordered, names_ordered). intros n. rewrite !filter_In, !names_in. split; intros [N P]; split; auto.
    - apply hasPrefix_iff in P as [r ->]. now apply NC.
    - destruct (look f (cwd ++ [n])) as [e|] eqn:L; [|congruence]. destruct (GG _ _ L) as [K _]. intros Q. apply kof_none in Q. rewrite Q in K. unfold kof in K. rewrite L in K. destruct e; discriminate. }
  unfold loadConfigFromDir in *. rewrite E. destruct (globConfig C O f cwd) as [[|p l]|]; auto.
  destruct (loadConfig C O f p) as [e|c'] eqn:LC; inversion H; subst. assert (E2 : loadConfig C O g p = inr c'); [|now rewrite E2].
  unfold loadConfig in *. destruct (oRead O p); [discriminate|]. cbn [orb] in *. destruct (blocked f p); [discriminate|]. destruct (look f p) as [e|] eqn:L; [|discriminate].
  assert (NG : goPath p -> beq (last p []) (str "cddlc.json") = false /\ beq (last p []) (str "cddlc.yaml") = false).
  { intros (d & st & ->). rewrite last_last. split.
    - destruct (beq (st ++ str ".go") (str "cddlc.json")) eqn:B; auto. apply beq_eq in B. apply (f_equal (fun l => last l 0)) in B. change (str ".go") with ([46; 103] ++ [111]) in B. rewrite app_assoc, last_last in B. discriminate.
    - destruct (beq (st ++ str ".go") (str "cddlc.yaml")) eqn:B; auto. apply beq_eq in B. apply (f_equal (fun l => last l 0)) in B. change (str ".go") with ([46; 103] ++ [111]) in B. rewrite app_assoc, last_last in B. discriminate. }
  destruct (GG p e L) as [K [Q|L']]; [destruct (NG Q) as [B1 B2]; rewrite B1, B2 in LC; discriminate|]. rewrite (unblocked g p RG) by congruence. now rewrite L'.
Qed.

(** Running generate again after it succeeded succeeds again and changes nothing. *)
Theorem C106_again : forall X C O cwd f g o, Rooted f -> look f cwd = Some EDir -> existsb hasMeta cwd = false ->
  generateCmd X C O (Some cwd) f = (g, o, Success) -> noNewSource f g -> noNewConfig cwd f g ->
  exists g', generateCmd X C O (Some cwd) g = (g', [], Success) /\ forall q, look g' q = look g q.
Proof.
  intros X C O cwd f g o R D M H NS NC. unfold generateCmd in *. destruct (loadConfigFromDir C O f cwd) as [e|c] eqn:LC; [discriminate|].
  destruct (builds_step _ _ _ _ _ _ _ _ R H) as (RG & GG & _). rewrite (config_again C O f g cwd c R RG GG D NC M LC).
  assert (I0 : Inv g f g) by (constructor; auto). destruct (again_builds g RG _ _ _ _ _ _ _ _ _ I0 H (grows_refl g)) as (g' & E & I).
  exists g'. split; auto. intros q. now destruct (iEither _ _ _ I q).
Qed.

(** ** The two exceptions *)

(** A configuration with one build from src to out. *)
Definition cliWith (src out : bytes) : CliExt :=
  mkCli (cGen sampleCli) (cFormat sampleCli) (fun _ => Some (mkConfig (str "1") [Some (mkBuild (str "main") src out)])) (cYaml sampleCli) (cGlob sampleCli)
        (cFmtV sampleCli) (cQuote sampleCli) (cMarshal sampleCli) (cArgs sampleCli).

Definition configured (src : path) (name : bytes) : fs :=
  [(home, EDir); (home ++ [str "cddlc.json"], EFile (str "{}")); (src, EDir); (src ++ [name], EFile (str "a = (b: int)"))].

(** Checks for concrete file systems. *)
Lemma new_by : forall (P : path -> bool) f g, forallb (fun qe => negb (P (fst qe)) || (match look f (fst qe) with Some _ => true | None => false end)) g = true ->
  forall q, P q = true -> look g q <> None -> look f q <> None.
Proof.
  intros P f g H q HP N. destruct q as [|c q]; [now rewrite look_root|]. apply look_in in N; [|discriminate]. destruct N as [e N].
  rewrite forallb_forall in H. specialize (H _ N). cbn [fst] in H. rewrite HP in H. cbn [negb orb] in H. destruct (look f (c :: q)); [discriminate|discriminate].
Qed.

Lemma newSource_by : forall f g, forallb (fun qe => negb (beq (ext (last (fst qe) [])) (str ".cddl")) || (match look f (fst qe) with Some _ => true | None => false end)) g = true -> noNewSource f g.
Proof.
  intros f g H q (d & st & ->). apply (new_by (fun q => beq (ext (last q [])) (str ".cddl")) f g H). rewrite last_last. apply ext_iff. eauto.
Qed.

Lemma newConfig_by : forall cwd f g, forallb (fun qe => negb (peq (removelast (fst qe)) cwd && hasPrefix (last (fst qe) []) (str "cddlc.")) || (match look f (fst qe) with Some _ => true | None => false end)) g = true -> noNewConfig cwd f g.
Proof.
  intros cwd f g H n. apply (new_by (fun q => peq (removelast q) cwd && hasPrefix (last q []) (str "cddlc.")) f g H). rewrite last_last, removelast_last, peq_refl. cbn [andb]. apply hasPrefix_iff. eauto.
Qed.

Lemma rooted_by : forall f, forallb (fun qe => match fst qe with [] => true | _ => match look f (removelast (fst qe)) with Some EDir => true | _ => false end end) f = true -> Rooted f.
Proof.
  intros f H p n N. apply look_in in N; [|destruct p; discriminate]. destruct N as [e N]. rewrite forallb_forall in H. specialize (H _ N). cbn [fst] in H.
  destruct (p ++ [n]) as [|c q] eqn:E; [destruct p; discriminate|]. rewrite <- E, removelast_last in H. destruct (look f p) as [[?|]|]; congruence.
Qed.

(** The output directory looks like a source: the second run tries to read it. *)
Theorem C106_source_refuted : exists X C O cwd f g h, Rooted f /\ look f cwd = Some EDir /\ existsb hasMeta cwd = false /\
  generateCmd X C O (Some cwd) f = (g, [], Success) /\ noNewConfig cwd f g /\ generateCmd X C O (Some cwd) g = (h, [], Failure ERead).
Proof.
  exists X0, (cliWith (str "src") (str "src/gen.cddl")), noRefusals, home, (configured (home ++ [str "src"]) (str "m.cddl")). do 2 eexists.
  split; [now apply rooted_by|]. split; [reflexivity|]. split; [reflexivity|]. split; [vm_compute; reflexivity|]. split; [now apply newConfig_by|vm_compute; reflexivity].
Qed.

(** An output looks like a configuration file and is found first. *)
Theorem C106_config_refuted : exists X C O cwd f g h, Rooted f /\ look f cwd = Some EDir /\ existsb hasMeta cwd = false /\
  generateCmd X C O (Some cwd) f = (g, [], Success) /\ noNewSource f g /\ generateCmd X C O (Some cwd) g = (h, [], Failure EBase).
Proof.
  exists X0, (cliWith (str "src") (str ".")), noRefusals, home, (configured (home ++ [str "src"]) (str "cddlc.api.cddl")). do 2 eexists.
  split; [now apply rooted_by|]. split; [reflexivity|]. split; [reflexivity|]. split; [vm_compute; reflexivity|]. split; [now apply newSource_by|vm_compute; reflexivity].
Qed.

Definition madeFs : fs := Eval vm_compute in fst (fst (generateCmd X0 (cliWith (str "src") (str "out/go")) noRefusals (Some home) (configured (home ++ [str "src"]) (str "m.cddl")))).

Example C106_ex : let f := configured (home ++ [str "src"]) (str "m.cddl") in
  Rooted f /\ look f home = Some EDir /\ existsb hasMeta home = false /\
  generateCmd X0 (cliWith (str "src") (str "out/go")) noRefusals (Some home) f = (madeFs, [], Success) /\ noNewSource f madeFs /\ noNewConfig home f madeFs /\
  look madeFs (home ++ [str "out"; str "go"; str "m.go"]) <> look f (home ++ [str "out"; str "go"; str "m.go"]).
Proof.
  cbv zeta. split; [now apply rooted_by|]. split; [reflexivity|]. split; [reflexivity|]. split; [vm_compute; reflexivity|].
  split; [now apply newSource_by|]. split; [now apply newConfig_by|]. vm_compute. discriminate.
Qed.
