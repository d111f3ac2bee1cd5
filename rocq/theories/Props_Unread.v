(** Property C107: generate reads the texts of sources and of the configuration only. *)
From Coq Require Import String.
From Verif Require Import Base Token Ext Lexer Ast Diag Parser ParseSource Codegen Cli CliProofs LexWords Repl Main
  Props_Lexer Props_Report Props_Cli Props_Project Props_Again.
Open Scope string_scope.
Open Scope list_scope.
Open Scope Z_scope.

(** ** Specification *)

(** Files that are neither sources nor configurations. *)
Definition unread (q : path) : Prop := ~ sourcePath q /\ forall d, q <> d ++ [str "cddlc.json"] /\ q <> d ++ [str "cddlc.yaml"].

(** The same files and directories; the texts of such files may differ. *)
Definition alikeFs (f f' : fs) : Prop := forall q, look f' q = look f q \/ (unread q /\ exists s s', look f q = Some (EFile s) /\ look f' q = Some (EFile s')).

(** ** Two runs *)

Section unread.
Variables f0 f0' : fs.

(** Entries are equal, or they are such files and as they were at the start. *)
Definition alike (f f' : fs) : Prop := forall q, look f' q = look f q \/
  (unread q /\ look f q = look f0 q /\ look f' q = look f0' q /\ exists s s', look f q = Some (EFile s) /\ look f' q = Some (EFile s')).

Lemma alike_kof : forall f f', alike f f' -> forall q, kof f' q = kof f q.
Proof. intros f f' H q. unfold kof. destruct (H q) as [->|(_ & _ & _ & s & s' & -> & ->)]; auto. Qed.

Lemma kof_blocked : forall f f' p, (forall q, kof f' q = kof f q) -> blocked f' p = blocked f p.
Proof.
  intros f f' p K. unfold blocked. generalize (@nil bytes). induction p as [|c r IH]; intros pre; cbn [blockedAt]; auto.
  rewrite IH. specialize (K pre). unfold kof in K. destruct (look f pre) as [[?|]|], (look f' pre) as [[?|]|]; try discriminate; auto.
Qed.

Lemma kof_stat : forall O f f' p d, (forall q, kof f' q = kof f q) -> statP O f' p d = statP O f p d.
Proof.
  intros O f f' p d K. unfold statP. rewrite (kof_blocked _ _ _ K). specialize (K p). unfold kof in K. destruct (_ || _); auto. destruct (look f p) as [[?|]|], (look f' p) as [[?|]|]; try discriminate; auto.
Qed.

Lemma kof_list : forall O f f' p, (forall q, kof f' q = kof f q) -> readDir O f' p = readDir O f p.
Proof.
  intros O f f' p K. unfold readDir. rewrite (kof_blocked _ _ _ K).
  assert (N : names f' p = names f p).
  { apply ordered_same; try apply names_ordered. intros n. rewrite !names_in, <- !kof_none, K. reflexivity. }
  rewrite N. specialize (K p). unfold kof in K. destruct (_ || _); auto. destruct (look f p) as [[?|]|], (look f' p) as [[?|]|]; try discriminate; auto.
Qed.

Lemma alike_set : forall f f' p e, alike f f' -> alike (set f p e) (set f' p e).
Proof.
  intros f f' p e H q. destruct q as [|c q]; [left; reflexivity|]. destruct (path_dec (c :: q) p) as [<-|N]; [left; now rewrite !look_same by discriminate|]. rewrite !look_other by auto. apply H.
Qed.

Lemma alike_mkdir : forall O rest f f' pre, alike f f' ->
  alike (fst (mkdirFrom O f pre rest)) (fst (mkdirFrom O f' pre rest)) /\ snd (mkdirFrom O f' pre rest) = snd (mkdirFrom O f pre rest).
Proof.
  intros O. induction rest as [|c r IH]; intros f f' pre H; cbn [mkdirFrom]; auto. pose proof (alike_kof _ _ H (pre ++ [c])) as K. unfold kof in K.
  destruct (look f (pre ++ [c])) as [[?|]|], (look f' (pre ++ [c])) as [[?|]|]; try discriminate; auto. destruct (oMkdir O (pre ++ [c])); auto. apply IH. now apply alike_set.
Qed.

Lemma alike_open : forall O f f' p, alike f f' -> match openWrite O true f p, openWrite O true f' p with
  | None, None => True | Some g, Some g' => alike g g' | _, _ => False end.
Proof.
  intros O f f' p H. unfold openWrite. rewrite (kof_blocked f f' p (alike_kof _ _ H)). destruct (_ || _); auto. pose proof (alike_kof _ _ H p) as K. unfold kof in K.
  destruct (look f p) as [[?|]|], (look f' p) as [[?|]|]; try discriminate; auto; [now apply alike_set|].
  pose proof (alike_kof _ _ H (removelast p)) as K2. unfold kof in K2. destruct (look f (removelast p)) as [[?|]|], (look f' (removelast p)) as [[?|]|]; try discriminate; auto. now apply alike_set.
Qed.

Lemma alike_append : forall f f' p d, alike f f' -> look f' p = look f p -> alike (append f p d) (append f' p d) /\ look (append f' p d) p = look (append f p d) p.
Proof.
  intros f f' p d H E. unfold append. rewrite E. destruct (look f p) as [[c|]|] eqn:L; [|split; auto; congruence|split; auto; congruence]. split; [now apply alike_set|].
  destruct p; [reflexivity|now rewrite !look_same by discriminate].
Qed.

(** Runs that end and report alike. *)
Definition sameRun2 (r r' : run) : Prop := snd r' = snd r /\ snd (fst r') = snd (fst r) /\ alike (fst (fst r)) (fst (fst r')).

Lemma alike_file : forall X C O pkg src out f f', alike f f' -> sourcePath src -> sameRun2 (generateFile X C O pkg src out f) (generateFile X C O pkg src out f').
Proof.
  intros X C O pkg src out f f' H SP. unfold generateFile, readFile. rewrite (kof_blocked f f' src (alike_kof _ _ H)). destruct (_ || _); [repeat split; auto|].
  assert (E : look f' src = look f src) by (destruct (H src) as [E|((N & _) & _)]; [auto|destruct (N SP)]). rewrite E.
  destruct (look f src) as [[s|]|]; try (repeat split; auto; fail). pose proof (alike_open O f f' out H) as W.
  destruct (openWrite O true f out) as [g|] eqn:W1, (openWrite O true f' out) as [g'|] eqn:W2; try contradiction; [|repeat split; auto].
  destruct (openWrite_trunc _ _ _ _ W1) as [T1 _]. destruct (openWrite_trunc _ _ _ _ W2) as [T2 _].
  destruct (parse X s) as [[[t [ds|]] p]| | |]; try (repeat split; auto; fail).
  - destruct (errorStringer C s ds); repeat split; auto.
  - destruct (visit (cGen C) (rootNode t) (newGenerator pkg)) as [G| | |]; try (repeat split; auto; fail).
    destruct (oWrite O out); [repeat split; auto|]. repeat split; auto. cbn [fst].
    destruct (alike_append g g' out (header (cArgs C)) W) as [A1 A2]; [congruence|]. now apply alike_append.
Qed.

Lemma alike_ensure : forall O f f' cwd dir, alike f f' ->
  alike (fst (ensureOut O f cwd dir)) (fst (ensureOut O f' cwd dir)) /\ snd (ensureOut O f' cwd dir) = snd (ensureOut O f cwd dir).
Proof.
  intros O f f' cwd dir H. unfold ensureOut, stat, mkdirAll. destruct (pathOf cwd dir) as [p|]; [|cbn; auto]. rewrite (kof_stat O f f' p _ (alike_kof _ _ H)).
  destruct (statP O f p (dirOnly dir)); auto. destruct (alike_mkdir O p f f' [] H) as [H1 H2].
  destruct (mkdirFrom O f [] p) as [g a], (mkdirFrom O f' [] p) as [g' b]. cbn [fst snd] in *. subst b. auto.
Qed.

Lemma alike_files : forall X C O cwd b dir l f f', alike f f' -> sameRun2 (generateFiles X C O cwd b dir l f) (generateFiles X C O cwd b dir l f').
Proof.
  intros X C O cwd b dir. induction l as [|n l IH]; intros f f' H; cbn [generateFiles]; [repeat split; auto|].
  destruct (beq (ext n) (str ".cddl")) eqn:E; cbn [negb]; [|now apply IH].
  destruct (alike_ensure O f f' cwd (bOut b) H) as [H1 H2]. destruct (ensureOut O f cwd (bOut b)) as [g e], (ensureOut O f' cwd (bOut b)) as [g' e']. cbn [fst snd] in *. subst e'.
  destruct e as [e|]; [repeat split; auto|]. destruct (pathOf cwd (bOut b)) as [out|]; [|repeat split; auto].
  assert (SP : sourcePath (dir ++ [n])) by (apply ext_iff in E as [st ->]; exists dir, st; reflexivity).
  pose proof (alike_file X C O (bPackage b) (dir ++ [n]) (out ++ [outName n]) g g' H1 SP) as K.
  destruct (generateFile X C O (bPackage b) (dir ++ [n]) (out ++ [outName n]) g) as [[g2 o] oc], (generateFile X C O (bPackage b) (dir ++ [n]) (out ++ [outName n]) g') as [[g2' o'] oc'].
  destruct K as (K1 & K2 & K3). cbn [fst snd] in *. subst oc' o'. destruct oc; try (repeat split; auto; fail).
  specialize (IH g2 g2' K3). destruct (generateFiles X C O cwd b dir l g2) as [[g3 o3] oc3], (generateFiles X C O cwd b dir l g2') as [[g3' o3'] oc3'].
  destruct IH as (I1 & I2 & I3). cbn [fst snd] in *. subst oc3' o3'. repeat split; auto.
Qed.

Lemma alike_build : forall X C O cwd b f f', alike f f' -> sameRun2 (generateBuild X C O cwd b f) (generateBuild X C O cwd b f').
Proof.
  intros X C O cwd [b|] f f' H; cbn [generateBuild]; [|repeat split; auto]. unfold stat. destruct (pathOf cwd (bSource b)) as [dir|]; [|repeat split; auto].
  rewrite (kof_stat O f f' dir _ (alike_kof _ _ H)), (kof_list O f f' dir (alike_kof _ _ H)). destruct (statP O f dir (dirOnly (bSource b))); try (repeat split; auto; fail).
  destruct (readDir O f dir); [|repeat split; auto]. now apply alike_files.
Qed.

Lemma alike_builds : forall X C O cwd l f f', alike f f' -> sameRun2 (generateBuilds X C O cwd l f) (generateBuilds X C O cwd l f').
Proof.
  intros X C O cwd. induction l as [|b l IH]; intros f f' H; cbn [generateBuilds]; [repeat split; auto|].
  pose proof (alike_build X C O cwd b f f' H) as K. destruct (generateBuild X C O cwd b f) as [[g o] oc], (generateBuild X C O cwd b f') as [[g' o'] oc'].
  destruct K as (K1 & K2 & K3). cbn [fst snd] in *. subst oc' o'. destruct oc; try (repeat split; auto; fail).
  specialize (IH g g' K3). destruct (generateBuilds X C O cwd l g) as [[g3 o3] oc3], (generateBuilds X C O cwd l g') as [[g3' o3'] oc3'].
  destruct IH as (I1 & I2 & I3). cbn [fst snd] in *. subst oc3' o3'. repeat split; auto.
Qed.

Lemma alike_config : forall C O f f' p, alike f f' -> loadConfig C O f' p = loadConfig C O f p.
Proof.
  intros C O f f' p H. unfold loadConfig. rewrite (kof_blocked f f' p (alike_kof _ _ H)). destruct (_ || _); auto.
  destruct (H p) as [->|((_ & N) & _ & _ & s & s' & -> & ->)]; auto.
  destruct p as [|c p] using rev_ind; [reflexivity|]. clear IHp. rewrite last_last. destruct (N p) as [N1 N2].
  destruct (beq c (str "cddlc.json")) eqn:B1; [apply beq_eq in B1; congruence|]. destruct (beq c (str "cddlc.yaml")) eqn:B2; [apply beq_eq in B2; congruence|]. reflexivity.
Qed.

Lemma alike_load : forall C O f f' dir, alike f f' -> (existsb hasMeta dir = true -> cGlob C f' dir = cGlob C f dir) ->
  loadConfigFromDir C O f' dir = loadConfigFromDir C O f dir.
Proof.
  intros C O f f' dir H G. unfold loadConfigFromDir, globConfig. rewrite (kof_stat O f f' dir false (alike_kof _ _ H)), (kof_list O f f' dir (alike_kof _ _ H)).
  destruct (existsb hasMeta dir).
  - rewrite (G eq_refl). destruct (cGlob C f dir) as [[|p l]|]; auto. now rewrite (alike_config C O f f' p H).
  - destruct (statP O f dir false); auto. destruct (readDir O f dir) as [l|]; auto.
    destruct (map _ (filter _ l)) as [|p r]; auto. now rewrite (alike_config C O f f' p H).
Qed.
End unread.

(** If the texts of other files are changed, generate ends the same way with the same
    reports, and every file is either the same in both or was not touched in either. *)
Theorem C107_reads : forall X C O wd f f', alikeFs f f' -> (forall dir, existsb hasMeta dir = true -> cGlob C f' dir = cGlob C f dir) ->
  let '(g, o, oc) := generateCmd X C O wd f in
  let '(g', o', oc') := generateCmd X C O wd f' in
  oc' = oc /\ o' = o /\ forall q, look g' q = look g q \/ (unread q /\ look g q = look f q /\ look g' q = look f' q).
Proof.
  intros X C O wd f f' H G. assert (A : alike f f' f f').
  { intros q. destruct (H q) as [E|(U & s & s' & E & E')]; auto. right. eauto 7. }
  assert (F : forall g g', alike f f' g g' -> forall q, look g' q = look g q \/ (unread q /\ look g q = look f q /\ look g' q = look f' q)).
  { intros g g' K q. destruct (K q) as [E|(U & E1 & E2 & _)]; auto. }
  unfold generateCmd. destruct wd as [cwd|]; [|repeat split; auto].
  rewrite (alike_load f f' C O f f' cwd A (G cwd)). destruct (loadConfigFromDir C O f cwd) as [e|c]; [repeat split; auto|].
  match goal with |- context [generateBuilds X C O cwd ?l f] => pose proof (alike_builds f f' X C O cwd l f f' A) as K; destruct (generateBuilds X C O cwd l f) as [[g o] oc], (generateBuilds X C O cwd l f') as [[g' o'] oc'] end.
  destruct K as (K1 & K2 & K3). cbn [fst snd] in *. repeat split; auto.
Qed.

(** So the process prints the same and ends alike. *)
Theorem C107_process : forall X M O cwd wdOk f f' stdin args, alikeFs f f' -> (forall dir, existsb hasMeta dir = true -> cGlob (mCli M) f' dir = cGlob (mCli M) f dir) ->
  let a := runCommand X M O cwd wdOk f stdin CGenerate args in
  let b := runCommand X M O cwd wdOk f' stdin CGenerate args in
  prOut b = prOut a /\ prErr b = prErr a /\ prEnd b = prEnd a /\
  forall q, look (prFs b) q = look (prFs a) q \/ (unread q /\ look (prFs a) q = look f q /\ look (prFs b) q = look f' q).
Proof.
  intros X M O cwd wdOk f f' stdin args H G a b. subst a b. cbn [runCommand].
  pose proof (C107_reads X (mCli M) O (if wdOk then Some cwd else None) f f' H G) as K.
  assert (NT : match (if wdOk then Some cwd else None) with Some d => match loadConfigFromDir (mCli M) O f' d with inr None => noConfigText d | _ => [] end | None => [] end =
    match (if wdOk then Some cwd else None) with Some d => match loadConfigFromDir (mCli M) O f d with inr None => noConfigText d | _ => [] end | None => [] end).
  { destruct wdOk; auto. rewrite (alike_load f f' (mCli M) O f f' cwd); auto. intros q. destruct (H q) as [E|(U & s & s' & E & E')]; auto. right. eauto 7. }
  destruct (generateCmd X (mCli M) O (if wdOk then Some cwd else None) f) as [[g o] oc], (generateCmd X (mCli M) O (if wdOk then Some cwd else None) f') as [[g' o'] oc'].
  destruct K as (-> & -> & K). rewrite NT. unfold finish. cbn [prOut prEnd prErr prFs]. repeat split; auto.
Qed.

(** An old output and a note differ; afterwards the outputs are the same. *)
Definition withTexts (old note : bytes) : fs :=
  [(home, EDir); (home ++ [str "a.cddl"], EFile (str "a = int")); (home ++ [str "dist"], EDir);
   (home ++ [str "dist"; str "a.go"], EFile old); (home ++ [str "note"], EFile note)].

Example C107_ex : let f := withTexts (str "old") (str "x") in let f' := withTexts [] (str "y") in
  alikeFs f f' /\ look f (home ++ [str "dist"; str "a.go"]) <> look f' (home ++ [str "dist"; str "a.go"]) /\
  let '(g, o, oc) := generateCmd X0 sampleCli noRefusals (Some home) f in
  let '(g', o', oc') := generateCmd X0 sampleCli noRefusals (Some home) f' in
  oc = Success /\ oc' = Success /\ look g (home ++ [str "dist"; str "a.go"]) = look g' (home ++ [str "dist"; str "a.go"]) /\
  look g (home ++ [str "note"]) = Some (EFile (str "x")) /\ look g' (home ++ [str "note"]) = Some (EFile (str "y")).
Proof.
  cbv zeta. split; [|split; [vm_compute; discriminate|vm_compute; repeat split]].
  assert (U : forall d n, ~ (exists st, n = st ++ str ".cddl") -> n <> str "cddlc.json" -> n <> str "cddlc.yaml" -> unread (d ++ [n])).
  { intros d n N1 N2 N3. split; [intros (d' & st & E); apply app_inj_tail in E as [_ E]; eauto|]. intros d'. split; intros E; apply app_inj_tail in E as [_ E]; auto. }
  intros q. destruct q as [|c q]; [now left|].
  destruct (path_dec (c :: q) (home ++ [str "dist"; str "a.go"])) as [->|N1].
  { right. split; [|do 2 eexists; split; reflexivity]. apply (U (home ++ [str "dist"]) (str "a.go")); try discriminate. intros X. apply ext_iff in X. discriminate. }
  destruct (path_dec (c :: q) (home ++ [str "note"])) as [->|N2].
  { right. split; [|do 2 eexists; split; reflexivity]. apply (U home (str "note")); try discriminate. intros X. apply ext_iff in X. discriminate. }
  left. unfold withTexts. cbn [look]. rewrite !(peq_neq (home ++ [str "dist"; str "a.go"])), !(peq_neq (home ++ [str "note"])) by congruence. reflexivity.
Qed.
