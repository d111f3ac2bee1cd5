(** Property C105: reformatting a project. If the sources of a project are laid out or
    commented differently, the generate command leaves the same generated files. *)
From Coq Require Import String.
From Verif Require Import Base Utf8 Token Strconv Ext Lexer LexSpec LexSpec2 LexSpec3 LexWords Ast Env Diag Parser Doc ParseSource Codegen Cli CliProofs Main
  Props_Lexer Props_Parser Props_Codegen Props_Report Props_Cli Props_Layout Props_Reformat Props_Notes.
Open Scope string_scope.
Open Scope list_scope.
Open Scope Z_scope.

(** ** Specification *)

(** Files whose name ends in ".cddl". *)
Definition sourcePath (q : path) : Prop := exists dir stem, q = dir ++ [stem ++ str ".cddl"].

(** The same text, or two decodable ones that differ in layout and in the texts of comments. *)
Definition rewritten (X : Ext) (s s' : bytes) : Prop := s = s' \/ (decodable s /\ decodable s' /\ Renoted X true s s').

(** The same files and directories, such sources apart. *)
Definition sameProject (X : Ext) (f f' : fs) : Prop := forall q,
  look f' q = look f q \/ (sourcePath q /\ exists s s', look f q = Some (EFile s) /\ look f' q = Some (EFile s') /\ rewritten X s s').

(** ** The file system *)

Section project.
Variable X : Ext.
Notation same := (sameProject X).

Lemma same_kind : forall f f' q, same f f' -> match look f q, look f' q with
  | None, None => True | Some EDir, Some EDir => True | Some (EFile _), Some (EFile _) => True | _, _ => False end.
Proof. intros f f' q H. destruct (H q) as [->|(_ & s & s' & -> & -> & _)]; auto. destruct (look f q) as [[?|]|]; exact I. Qed.

Lemma same_blocked : forall f f' p, same f f' -> blocked f' p = blocked f p.
Proof.
  intros f f' p H. unfold blocked. generalize (@nil bytes). induction p as [|c r IH]; intros pre; cbn [blockedAt]; auto.
  rewrite IH. pose proof (same_kind _ _ pre H) as K. destruct (look f pre) as [[?|]|], (look f' pre) as [[?|]|]; try contradiction; auto.
Qed.

Lemma same_stat : forall O f f' p d, same f f' -> statP O f' p d = statP O f p d.
Proof.
  intros O f f' p d H. unfold statP. rewrite (same_blocked _ _ _ H). destruct (_ || _); auto. pose proof (same_kind _ _ p H) as K.
  destruct (look f p) as [[?|]|], (look f' p) as [[?|]|]; try contradiction; auto.
Qed.

Lemma ordered_same : forall l m, Ordered l -> Ordered m -> (forall n, In n l <-> In n m) -> l = m.
Proof.
  induction l as [|a l IH]; intros m OL OM E.
  - destruct m as [|b m]; auto. exfalso. apply (E b). now left.
  - destruct m as [|b m]; [exfalso; apply (E a); now left|]. inversion OL as [|? ? FA OA]; subst. inversion OM as [|? ? FB OB]; subst. rewrite Forall_forall in FA, FB.
    assert (K : a = b).
    { destruct (proj1 (E a) (or_introl eq_refl)) as [->|HA]; auto. destruct (proj2 (E b) (or_introl eq_refl)) as [->|HB]; auto.
      pose proof (blt_trans _ _ _ (FA _ HB) (FB _ HA)) as Q. now rewrite blt_irrefl in Q. }
    subst b. f_equal. apply IH; auto. intros n. split; intros HI.
    + destruct (proj1 (E n) (or_intror HI)) as [->|?]; auto. specialize (FA _ HI). now rewrite blt_irrefl in FA.
    + destruct (proj2 (E n) (or_intror HI)) as [->|?]; auto. specialize (FB _ HI). now rewrite blt_irrefl in FB.
Qed.

Lemma same_names : forall f f' p, same f f' -> names f' p = names f p.
Proof.
  intros f f' p H. apply ordered_same; try apply names_ordered. intros n. rewrite !names_in. pose proof (same_kind _ _ (p ++ [n]) H) as K.
  destruct (look f (p ++ [n])) as [[?|]|], (look f' (p ++ [n])) as [[?|]|]; try contradiction; split; intros; congruence.
Qed.

Lemma same_list : forall O f f' p, same f f' -> readDir O f' p = readDir O f p.
Proof.
  intros O f f' p H. unfold readDir. rewrite (same_blocked _ _ _ H), (same_names _ _ _ H). destruct (_ || _); auto. pose proof (same_kind _ _ p H) as K.
  destruct (look f p) as [[?|]|], (look f' p) as [[?|]|]; try contradiction; auto.
Qed.

Lemma same_set : forall f f' p e, same f f' -> same (set f p e) (set f' p e).
Proof.
  intros f f' p e H q. destruct q as [|c q]; [left; reflexivity|].
  destruct (list_eq_dec (list_eq_dec Z.eq_dec) (c :: q) p) as [<-|N]; [left; now rewrite !look_same by discriminate|]. rewrite !look_other by auto. apply H.
Qed.

Lemma same_read : forall O f f' p, same f f' -> match readFile O f p, readFile O f' p with
  | None, None => True | Some s, Some s' => rewritten X s s' /\ (~ sourcePath p -> s = s') | _, _ => False end.
Proof.
  intros O f f' p H. unfold readFile. rewrite (same_blocked _ _ _ H). destruct (_ || _); auto.
  destruct (H p) as [->|(S & s & s' & -> & -> & R)]; [|split; auto; now intros []]. destruct (look f p) as [[?|]|]; auto. split; [now left|auto].
Qed.

Lemma same_open : forall O t f f' p, same f f' -> match openWrite O t f p, openWrite O t f' p with
  | None, None => True | Some g, Some g' => same g g' | _, _ => False end.
Proof.
  intros O t f f' p H. unfold openWrite. rewrite (same_blocked _ _ _ H). destruct (_ || _); auto. pose proof (same_kind _ _ p H) as K.
  destruct (look f p) as [[?|]|], (look f' p) as [[?|]|]; try contradiction; auto.
  - destruct t; auto. now apply same_set.
  - pose proof (same_kind _ _ (removelast p) H) as K2. destruct (look f (removelast p)) as [[?|]|], (look f' (removelast p)) as [[?|]|]; try contradiction; auto. now apply same_set.
Qed.

Lemma same_append : forall f f' p d, same f f' -> ~ sourcePath p -> same (append f p d) (append f' p d).
Proof.
  intros f f' p d H N. unfold append. destruct (H p) as [->|(S & _)]; [|contradiction]. destruct (look f p) as [[?|]|]; auto. now apply same_set.
Qed.

Lemma same_mkdir : forall O rest f f' pre, same f f' ->
  same (fst (mkdirFrom O f pre rest)) (fst (mkdirFrom O f' pre rest)) /\ snd (mkdirFrom O f' pre rest) = snd (mkdirFrom O f pre rest).
Proof.
  intros O. induction rest as [|c r IH]; intros f f' pre H; cbn [mkdirFrom]; auto. pose proof (same_kind _ _ (pre ++ [c]) H) as K.
  destruct (look f (pre ++ [c])) as [[?|]|], (look f' (pre ++ [c])) as [[?|]|]; try contradiction; auto. destruct (oMkdir O (pre ++ [c])); auto. apply IH. now apply same_set.
Qed.

(** ** The command *)

(** Runs that end alike. *)
Definition sameEnd (r r' : run) : Prop :=
  snd r' = snd r /\ length (snd (fst r')) = length (snd (fst r)) /\ same (fst (fst r)) (fst (fst r')).

Lemma same_file : forall C O pkg src out f f', same f f' -> ~ sourcePath out -> sameEnd (generateFile X C O pkg src out f) (generateFile X C O pkg src out f').
Proof.
  intros C O pkg src out f f' H NO. unfold generateFile. pose proof (same_read O f f' src H) as R.
  destruct (readFile O f src) as [s|] eqn:E1, (readFile O f' src) as [s'|] eqn:E2; try contradiction; [|repeat split; auto]. destruct R as [R _].
  pose proof (same_open O true f f' out H) as W. destruct (openWrite O true f out) as [g|], (openWrite O true f' out) as [g'|]; try contradiction; [|repeat split; auto].
  destruct R as [<-|(D & D' & R)].
  - destruct (parse X s) as [[[t [ds|]] p]| | |]; try (repeat split; auto; fail).
    + destruct (errorStringer C s ds); repeat split; auto.
    + destruct (visit (cGen C) (rootNode t) (newGenerator pkg)) as [G| | |]; cbn [ended]; try (repeat split; auto; fail).
      destruct (oWrite O out); [repeat split; auto|]. repeat split; auto. cbn [fst]. apply same_append; auto. apply same_append; auto.
  - assert (K : drawn (parse X s) (parse X s')) by (apply notes_drawn; unfold parse; now apply C104_parsed).
    destruct (parse X s) as [[[t [ds|]] p]| | |] eqn:P, (parse X s') as [[[t' [ds'|]] p']| | |] eqn:P'; cbn [drawn] in K; try contradiction; [| |repeat split; auto].
    + destruct (C26_reports X C s _ _ _ _ _ D (le_n _) P) as (o & -> & F). destruct (C26_reports X C s' _ _ _ _ _ D' (le_n _) P') as (o' & -> & F').
      apply pairs_length in F; apply pairs_length in F'. split; [reflexivity|]. split; [cbn [fst snd]; congruence|exact W].
    + rewrite <- (C90_tree _ _ _ (newGenerator pkg) K). destruct (visit (cGen C) (rootNode t) (newGenerator pkg)) as [G| | |]; cbn [ended]; try (repeat split; auto; fail).
      destruct (oWrite O out); [repeat split; auto|]. repeat split; auto. cbn [fst]. apply same_append; auto. apply same_append; auto.
Qed.

Lemma out_path : forall dir n, beq (ext n) (str ".cddl") = true -> ~ sourcePath (dir ++ [outName n]).
Proof.
  intros dir n E (d & stem & K). apply ext_iff in E as [st ->]. rewrite outName_stem in K. apply app_inj_tail in K as [_ K]. exact (suffix_differs _ _ K).
Qed.

Lemma same_ensure : forall O f f' cwd dir, same f f' ->
  same (fst (ensureOut O f cwd dir)) (fst (ensureOut O f' cwd dir)) /\ snd (ensureOut O f' cwd dir) = snd (ensureOut O f cwd dir).
Proof.
  intros O f f' cwd dir H. unfold ensureOut, stat, mkdirAll. destruct (pathOf cwd dir) as [p|]; [|cbn; auto]. rewrite (same_stat O f f' p _ H).
  destruct (statP O f p (dirOnly dir)); auto. destruct (same_mkdir O p f f' [] H) as [H1 H2].
  destruct (mkdirFrom O f [] p) as [g a], (mkdirFrom O f' [] p) as [g' b]. cbn [fst snd] in *. subst b. auto.
Qed.

Lemma same_files : forall C O cwd b dir l f f', same f f' -> sameEnd (generateFiles X C O cwd b dir l f) (generateFiles X C O cwd b dir l f').
Proof.
  intros C O cwd b dir. induction l as [|n l IH]; intros f f' H; cbn [generateFiles]; [repeat split; auto|].
  destruct (beq (ext n) (str ".cddl")) eqn:E; cbn [negb]; [|now apply IH].
  destruct (same_ensure O f f' cwd (bOut b) H) as [H1 H2]. destruct (ensureOut O f cwd (bOut b)) as [g e], (ensureOut O f' cwd (bOut b)) as [g' e']. cbn [fst snd] in *. subst e'.
  destruct e as [e|]; [repeat split; auto|]. destruct (pathOf cwd (bOut b)) as [out|]; [|repeat split; auto].
  pose proof (same_file C O (bPackage b) (dir ++ [n]) (out ++ [outName n]) g g' H1 (out_path out n E)) as K.
  destruct (generateFile X C O (bPackage b) (dir ++ [n]) (out ++ [outName n]) g) as [[g2 o] oc], (generateFile X C O (bPackage b) (dir ++ [n]) (out ++ [outName n]) g') as [[g2' o'] oc'].
  destruct K as (K1 & K2 & K3). cbn [fst snd] in *. subst oc'. destruct oc; try (repeat split; auto; fail).
  specialize (IH g2 g2' K3). destruct (generateFiles X C O cwd b dir l g2) as [[g3 o3] oc3], (generateFiles X C O cwd b dir l g2') as [[g3' o3'] oc3'].
  destruct IH as (I1 & I2 & I3). cbn [fst snd] in *. subst oc3'. repeat split; auto. cbn [fst snd]. rewrite !app_length. congruence.
Qed.

Lemma same_build : forall C O cwd b f f', same f f' -> sameEnd (generateBuild X C O cwd b f) (generateBuild X C O cwd b f').
Proof.
  intros C O cwd [b|] f f' H; cbn [generateBuild]; [|repeat split; auto]. unfold stat. destruct (pathOf cwd (bSource b)) as [dir|]; [|repeat split; auto].
  rewrite (same_stat O f f' dir _ H), (same_list O f f' dir H). destruct (statP O f dir (dirOnly (bSource b))); try (repeat split; auto; fail).
  destruct (readDir O f dir); [|repeat split; auto]. now apply same_files.
Qed.

Lemma same_builds : forall C O cwd l f f', same f f' -> sameEnd (generateBuilds X C O cwd l f) (generateBuilds X C O cwd l f').
Proof.
  intros C O cwd. induction l as [|b l IH]; intros f f' H; cbn [generateBuilds]; [repeat split; auto|].
  pose proof (same_build C O cwd b f f' H) as K. destruct (generateBuild X C O cwd b f) as [[g o] oc], (generateBuild X C O cwd b f') as [[g' o'] oc'].
  destruct K as (K1 & K2 & K3). cbn [fst snd] in *. subst oc'. destruct oc; try (repeat split; auto; fail).
  specialize (IH g g' K3). destruct (generateBuilds X C O cwd l g) as [[g3 o3] oc3], (generateBuilds X C O cwd l g') as [[g3' o3'] oc3'].
  destruct IH as (I1 & I2 & I3). cbn [fst snd] in *. subst oc3'. repeat split; auto. cbn [fst snd]. rewrite !app_length. congruence.
Qed.

Lemma same_config : forall C O f f' p, same f f' -> loadConfig C O f' p = loadConfig C O f p.
Proof.
  intros C O f f' p H. unfold loadConfig. rewrite (same_blocked _ _ _ H). destruct (_ || _); auto.
  destruct (H p) as [->|((d & stem & ->) & s & s' & -> & -> & R)]; auto. rewrite last_last.
  assert (N : forall w, firstn 2 (rev w) <> [108; 100] -> beq (stem ++ str ".cddl") w = false).
  { intros w NW. destruct (beq (stem ++ str ".cddl") w) eqn:E; auto. apply beq_eq in E. exfalso. apply NW. rewrite <- E, rev_app_distr. reflexivity. }
  rewrite !N by (vm_compute; discriminate). reflexivity.
Qed.

Lemma same_load : forall C O f f' dir, same f f' -> (existsb hasMeta dir = true -> cGlob C f' dir = cGlob C f dir) ->
  loadConfigFromDir C O f' dir = loadConfigFromDir C O f dir.
Proof.
  intros C O f f' dir H G. unfold loadConfigFromDir, globConfig. rewrite (same_stat O f f' dir false H), (same_list O f f' dir H).
  destruct (existsb hasMeta dir).
  - rewrite (G eq_refl). destruct (cGlob C f dir) as [[|p l]|]; auto. now rewrite (same_config C O f f' p H).
  - destruct (statP O f dir false); auto. destruct (readDir O f dir) as [l|]; auto.
    destruct (map _ (filter _ l)) as [|p r]; auto. now rewrite (same_config C O f f' p H).
Qed.
End project.

(** The generate command ends in the same way with as many reports, and leaves the same files
    apart from these sources. (If the path of the working directory contains pattern
    characters, Glob has to find the same files.) *)
Theorem C105_generate : forall X C O wd f f', sameProject X f f' ->
  (forall dir, existsb hasMeta dir = true -> cGlob C f' dir = cGlob C f dir) ->
  let '(g, o, oc) := generateCmd X C O wd f in
  let '(g', o', oc') := generateCmd X C O wd f' in
  oc' = oc /\ length o' = length o /\ sameProject X g g'.
Proof.
  intros X C O wd f f' H G. unfold generateCmd. destruct wd as [cwd|]; [|repeat split; auto].
  rewrite (same_load X C O f f' cwd H (G cwd)). destruct (loadConfigFromDir C O f cwd) as [e|c]; [repeat split; auto|].
  match goal with |- context [generateBuilds X C O cwd ?l f] => pose proof (same_builds X C O cwd l f f' H) as K; destruct (generateBuilds X C O cwd l f) as [[g o] oc], (generateBuilds X C O cwd l f') as [[g' o'] oc'] end.
  exact K.
Qed.

(** The process: standard output, the exit status and every file that is not a source. *)
Theorem C105_process : forall X M O cwd wdOk f f' stdin args, sameProject X f f' ->
  (forall dir, existsb hasMeta dir = true -> cGlob (mCli M) f' dir = cGlob (mCli M) f dir) ->
  let a := runCommand X M O cwd wdOk f stdin CGenerate args in
  let b := runCommand X M O cwd wdOk f' stdin CGenerate args in
  prOut b = prOut a /\ prEnd b = prEnd a /\ exitStatus (prEnd b) = exitStatus (prEnd a) /\
  (prEnd a <> Failure EParser -> prErr b = prErr a) /\ forall q, ~ sourcePath q -> look (prFs b) q = look (prFs a) q.
Proof.
  intros X M O cwd wdOk f f' stdin args H G a b. subst a b. cbn [runCommand].
  pose proof (C105_generate X (mCli M) O (if wdOk then Some cwd else None) f f' H G) as K.
  assert (NT : match (if wdOk then Some cwd else None) with Some d => match loadConfigFromDir (mCli M) O f' d with inr None => noConfigText d | _ => [] end | None => [] end =
    match (if wdOk then Some cwd else None) with Some d => match loadConfigFromDir (mCli M) O f d with inr None => noConfigText d | _ => [] end | None => [] end).
  { destruct wdOk; auto. now rewrite (same_load X (mCli M) O f f' cwd H (G cwd)). }
  destruct (generateCmd X (mCli M) O (if wdOk then Some cwd else None) f) as [[g o] oc], (generateCmd X (mCli M) O (if wdOk then Some cwd else None) f') as [[g' o'] oc'].
  destruct K as (-> & _ & K). rewrite NT. unfold finish. cbn [prOut prEnd prErr prFs]. repeat split; auto.
  - intros N. destruct oc as [|e| | |]; auto. destruct e; auto. congruence.
  - intros q N. destruct (K q) as [E|[S _]]; [exact E|contradiction].
Qed.

(** ** Example *)

(** Two sources, one of them with other comments; the other is broken, so it is reported. *)
Definition projectOf (s : bytes) : fs :=
  [(home, EDir); (home ++ [str "a.cddl"], EFile s); (home ++ [str "b.cddl"], EFile badDoc);
   (home ++ [str "c.cddl"], EFile (str "c = int")); (home ++ [str "notes.txt"], EFile (str "x"))].

Example C105_ex : src1 <> src2 /\ sameProject X0 (projectOf src1) (projectOf src2) /\
  let '(g, o, oc) := generateCmd X0 sampleCli noRefusals (Some home) (projectOf src1) in
  let '(g', o', oc') := generateCmd X0 sampleCli noRefusals (Some home) (projectOf src2) in
  oc = Failure EParser /\ oc' = Failure EParser /\ o <> [] /\ length o' = length o /\
  look g (home ++ [str "dist"; str "a.go"]) = Some (EFile (fileText sampleCli (newGenerator []))) /\
  look g' (home ++ [str "dist"; str "a.go"]) = Some (EFile (fileText sampleCli (newGenerator []))).
Proof.
  split; [discriminate|]. split.
  - intros q. destruct q as [|c q]; [now left|].
    destruct (list_eq_dec (list_eq_dec Z.eq_dec) (c :: q) (home ++ [str "a.cddl"])) as [->|N].
    + right. split; [exists home, (str "a"); reflexivity|]. exists src1, src2. split; [reflexivity|]. split; [reflexivity|]. right.
      split; [now apply good_by_ascii|]. split; [now apply good_by_ascii|]. exact src_renoted.
    + left. unfold projectOf. cbn [look]. now rewrite !(peq_neq (home ++ [str "a.cddl"])) by congruence.
  - vm_compute. repeat split; discriminate.
Qed.
