(** The commands: what they do to the file system (C42, C43, C44, C45, C57 - C62). *)
From Coq Require Import String.
From Verif Require Import Base Utf8 Token Ext Lexer LexSpec Ast Env Diag Parser Repl Codegen Cli EnvProofs CliProofs Props_Codegen Props_Lexer Props_Report.
Open Scope string_scope.
Open Scope list_scope.
Open Scope Z_scope.

(** ** One file *)

(** The first lines of a generated file; [prog] is the name of the program and [args] the
    rest of the command line. *)
Definition headerText (prog : bytes) (args : list bytes) : bytes :=
  flat_map (fun l => l ++ [10])
    [str "/*";
     str "  File generated using `" ++ prog ++ str " " ++ concat (map (fun '(i, a) => (if (i =? 0)%nat then [] else [32]) ++ a) (combine (seq 0 (length args)) args)) ++ str "`. DO NOT EDIT";
     str "*/";
     []].

(** The name of the program: what follows the last slash of its path. *)
Definition programName (p n : bytes) : Prop := n <> [] /\ ~ In 47 n /\ (p = n \/ exists dir, p = dir ++ 47 :: n).

(** The text of a generated file. *)
Definition fileText (C : CliExt) (g : generator) : bytes :=
  headerText (base (hd [] (cArgs C))) (tl (cArgs C)) ++ cFormat C (gPkg (genString (cGen C) g)) (gDecls (genString (cGen C) g)).

(** What a successful run for one file has seen: a source without diagnostics whose tree
    the generator accepts, and no early lexer error. *)
Definition Compiled (X : Ext) (C : CliExt) (pkg s text : bytes) : Prop :=
  exists root p g, parse X s = Ok ((Some root, None), p) /\ visit (cGen C) root (newGenerator pkg) = Ok g /\ text = fileText C g.

Lemma joinSpace_spec : forall l, joinSpace l = concat (map (fun '(i, a) => (if (i =? 0)%nat then [] else [32]) ++ a) (combine (seq 0 (length l)) l)).
Proof.
  assert (K : forall l k, (if match l with [] => true | _ => false end then [] else 32 :: joinSpace l) =
    concat (map (fun '(i, a) => (if (i =? 0)%nat then [] else [32]) ++ a) (combine (seq (S k) (length l)) l))).
  { induction l as [|x l IH]; intros k; [reflexivity|]. cbn [length seq combine map concat Nat.eqb]. rewrite <- IH.
    destruct l; cbn [joinSpace app]; [now rewrite app_nil_r|reflexivity]. }
  intros [|x l]; [reflexivity|]. cbn [length seq combine map concat Nat.eqb app]. rewrite <- K. destruct l; cbn [joinSpace]; [now rewrite app_nil_r|reflexivity].
Qed.

Lemma header_text : forall a, header a = headerText (base (hd [] a)) (tl a).
Proof.
  intros a. unfold header, headerText. rewrite joinSpace_spec. cbn [flat_map].
  repeat (rewrite <- !app_assoc; cbn [app]). reflexivity.
Qed.

Lemma split_none : forall c s, ~ In c s -> split c s = [s].
Proof.
  intros c. induction s as [|x s IH]; intros N; auto. cbn [split]. destruct (x =? c) eqn:E; [apply Z.eqb_eq in E; subst; exfalso; apply N; now left|].
  rewrite IH; auto. intros K. apply N. now right.
Qed.

Lemma split_last : forall c d s, ~ In c s -> exists h t, split c (d ++ c :: s) = (h :: t) ++ [s].
Proof.
  intros c d s N. induction d as [|x d (h & t & IH)]; cbn [app split].
  - rewrite Z.eqb_refl. rewrite split_none by auto. now exists [], [].
  - rewrite IH. destruct (x =? c); [now exists [], (h :: t)|now exists (x :: h), t].
Qed.

Lemma base_name : forall p n, programName p n -> base p = n.
Proof.
  intros p n (NE & NS & H). assert (K : exists l, split 47 p = l ++ [n]).
  { destruct H as [->|[d ->]]; [exists []; now apply split_none|destruct (split_last 47 d n NS) as (h & t & E); eauto]. }
  destruct K as [l K]. assert (PN : p <> []) by (destruct H as [->|[d ->]]; auto; destruct d; discriminate).
  unfold base. destruct p; [congruence|]. rewrite K, filter_app. cbn [filter]. destruct n; [congruence|]. cbn [beq negb]. apply last_last.
Qed.

(** The header names the program and gives its arguments. *)
Theorem C42_header : forall args prog n, programName prog n -> header (prog :: args) = headerText n args.
Proof. intros args prog n H. rewrite header_text. cbn [hd tl]. now rewrite (base_name _ _ H). Qed.

Example C42_header_ex : header [str "/usr/bin/cddlc"; str "gen"; str "x y"] =
  str "/*" ++ [10] ++ str "  File generated using `cddlc gen x y`. DO NOT EDIT" ++ [10] ++ str "*/" ++ [10; 10].
Proof. reflexivity. Qed.

Lemma openWrite_other : forall O t f p f1 q, openWrite O t f p = Some f1 -> q <> p -> look f1 q = look f q.
Proof.
  intros O t f p f1 q H N. unfold openWrite in H. destruct (oOpen O p || blocked f p); [discriminate|].
  destruct (look f p) as [[c|]|]; try discriminate.
  - destruct t; inversion H; subst; auto. now apply look_other.
  - destruct (look f (removelast p)) as [[|]|]; inversion H; subst. now apply look_other.
Qed.

Lemma openWrite_root : forall O t f, openWrite O t f [] = None.
Proof. intros. unfold openWrite. rewrite look_root. now destruct (_ || _). Qed.

Lemma openWrite_trunc : forall O f p f1, openWrite O true f p = Some f1 -> look f1 p = Some (EFile []) /\ look f p <> Some EDir.
Proof.
  intros O f p f1 H. assert (N : p <> []) by (intros ->; rewrite openWrite_root in H; discriminate).
  unfold openWrite in H. destruct (oOpen O p || blocked f p); [discriminate|].
  destruct (look f p) as [[c|]|]; try discriminate.
  - inversion H; subst. split; [now apply look_same|discriminate].
  - destruct (look f (removelast p)) as [[|]|]; inversion H; subst. split; [now apply look_same|discriminate].
Qed.

Lemma append_other : forall f p d q, q <> p -> look (append f p d) q = look f q.
Proof. intros f p d q N. unfold append. destruct (look f p) as [[c|]|]; auto. now apply look_other. Qed.

Lemma append_same : forall f p d c, p <> [] -> look f p = Some (EFile c) -> look (append f p d) p = Some (EFile (c ++ d)).
Proof. intros f p d c N H. unfold append. rewrite H. now apply look_same. Qed.

Lemma parse_root : forall X s root ds p, parse X s = Ok ((root, ds), p) -> root = None \/ exists rules, root = Some (NCDDL zeroPos rules).
Proof.
  intros X s root ds p H. unfold parse, parseSource, parseFile in H. destruct (newParser _ _ _) as [p0| | |]; try discriminate.
  cbn [rbind] in H. destruct (errors (lx p0)).
  - destruct (fileLoop _ _ _ _ _) as [[rules p1]| | |]; try discriminate. cbn [rbind] in H. inversion H; eauto.
  - inversion H; auto.
Qed.

(** generateFile touches the output file only, whatever happens. *)
Theorem C42_only_output : forall X C O pkg src out f f' o oc, generateFile X C O pkg src out f = (f', o, oc) ->
  forall q, q <> out -> look f' q = look f q.
Proof.
  intros X C O pkg src out f f' o oc H q N. unfold generateFile in H.
  destruct (readFile O f src) as [s|]; [|inversion H; subst; auto].
  destruct (openWrite O true f out) as [f1|] eqn:E; [|inversion H; subst; auto].
  pose proof (openWrite_other _ _ _ _ _ q E N) as K.
  destruct (parse X s) as [[[root [ds|]] p]| | |]; try (inversion H; subst; auto; fail).
  - destruct (errorStringer C s ds); inversion H; subst; auto.
  - destruct (visit _ _ _) as [g| | |]; try (inversion H; subst; auto; fail).
    destruct (oWrite O out); inversion H; subst; auto. now rewrite !append_other.
Qed.

(** When it succeeds, the output file holds exactly the header and the generated text,
    whatever it held before; in every other case it is empty, or nothing was touched,
    and the latter only if the source could not be read or the output not opened. *)
Theorem C42_output : forall X C O pkg src out f f' o oc, generateFile X C O pkg src out f = (f', o, oc) ->
  (oc = Success /\ exists s text, readFile O f src = Some s /\ Compiled X C pkg s text /\ look f' out = Some (EFile text)) \/
  (oc <> Success /\ f' = f /\ (readFile O f src = None \/ openWrite O true f out = None)) \/
  (oc <> Success /\ look f' out = Some (EFile []) /\ readFile O f src <> None).
Proof.
  intros X C O pkg src out f f' o oc H. unfold generateFile in H.
  destruct (readFile O f src) as [s|] eqn:R; [|inversion H; subst; right; left; repeat split; auto; discriminate].
  destruct (openWrite O true f out) as [f1|] eqn:E; [|inversion H; subst; right; left; repeat split; auto; discriminate].
  destruct (openWrite_trunc _ _ _ _ E) as [T _].
  assert (N : out <> []) by (intros ->; rewrite openWrite_root in E; discriminate).
  destruct (parse X s) as [[[root [ds|]] p]| | |] eqn:P;
    try (inversion H; subst; right; right; repeat split; auto; cbn; discriminate).
  - destruct (errorStringer C s ds); inversion H; subst; right; right; repeat split; auto; cbn; discriminate.
  - destruct (visit _ _ _) as [g| | |] eqn:V; try (inversion H; subst; right; right; repeat split; auto; cbn; discriminate).
    destruct (oWrite O out); inversion H; subst; [right; right; repeat split; auto; discriminate|].
    left. split; auto. exists s, (fileText C g). split; auto. split.
    + destruct (parse_root _ _ _ _ _ P) as [->|[rules ->]]; [discriminate V|]. exists (NCDDL zeroPos rules), p, g. auto.
    + unfold fileText. rewrite <- header_text. erewrite append_same; auto. erewrite append_same; eauto. reflexivity.
Qed.

(** A source with diagnostics: the old output is lost, the error is returned and each
    diagnostic is reported. *)
Theorem C42_diagnostics : forall X C O pkg src out f s root ds p, decodable s ->
  readFile O f src = Some s -> openWrite O true f out <> None -> parse X s = Ok ((root, Some ds), p) ->
  exists f' o, generateFile X C O pkg src out f = (f', o, Failure EParser) /\ look f' out = Some (EFile []) /\
    Forall2 (Reported C s) ds o.
Proof.
  intros X C O pkg src out f s root ds p D R E P. unfold generateFile. rewrite R.
  destruct (openWrite O true f out) as [f1|] eqn:E1; [|congruence]. rewrite P.
  destruct (C26_reports X C s newEnvironment (parseFuel s) root ds p D (le_n _) P) as (outs & E2 & F).
  rewrite E2. exists f1, outs. split; auto. split; auto. eapply openWrite_trunc; eauto.
Qed.

(** A lexer error in the first two tokens makes ParseFile return nil without diagnostics;
    generate then crashes, after it has emptied the output. *)
Theorem C57_early_lexer_error : forall X C O pkg src out f s p,
  readFile O f src = Some s -> openWrite O true f out <> None -> parse X s = Ok ((None, None), p) ->
  exists f', generateFile X C O pkg src out f = (f', [], Crash) /\ look f' out = Some (EFile []).
Proof.
  intros X C O pkg src out f s p R E P. unfold generateFile. rewrite R.
  destruct (openWrite O true f out) as [f1|] eqn:E1; [|congruence]. rewrite P. cbn.
  exists f1. split; auto. eapply openWrite_trunc; eauto.
Qed.

(** ** All files *)

(** The names the loop takes: those ending in ".cddl". *)
Definition isSource (n : bytes) : Prop := exists stem, n = stem ++ str ".cddl".

(** How [q] may differ after a run of some builds: a directory made on the way to an output
    directory, or an output file for a source of the same stem in the source directory. *)
Inductive Effect (cwd : path) (bs : list (option build)) (f f' : fs) (q : path) : Prop :=
| Eff_same : look f' q = look f q -> Effect cwd bs f f' q
| Eff_dir : forall b p r, In (Some b) bs -> pathOf cwd (bOut b) = Some p -> p = q ++ r -> look f q = None -> look f' q = Some EDir ->
    Effect cwd bs f f' q
| Eff_out : forall b p src stem c, In (Some b) bs -> pathOf cwd (bOut b) = Some p -> pathOf cwd (bSource b) = Some src ->
    q = p ++ [stem ++ str ".go"] -> look f' (src ++ [stem ++ str ".cddl"]) <> None -> look f q <> Some EDir ->
    look f' q = Some (EFile c) -> Effect cwd bs f f' q.

(** Nothing disappears. *)
Definition grows (f f' : fs) : Prop := forall q, look f q <> None -> look f' q <> None.

Lemma effect_grows : forall cwd bs f f', (forall q, Effect cwd bs f f' q) -> grows f f'.
Proof. intros cwd bs f f' H q N. destruct (H q); congruence. Qed.

Lemma effect_trans : forall cwd bs f1 f2 f3, (forall q, Effect cwd bs f1 f2 q) -> (forall q, Effect cwd bs f2 f3 q) ->
  forall q, Effect cwd bs f1 f3 q.
Proof.
  intros cwd bs f1 f2 f3 H1 H2 q. pose proof (effect_grows _ _ _ _ H2) as G.
  destruct (H1 q) as [E1|b p r B P E N D|b p src stem c B P S E N D F];
    destruct (H2 q) as [E2|b2 p2 r2 B2 P2 E2 N2 D2|b2 p2 src2 stem2 c2 B2 P2 S2 E2 N2 D2 F2]; try congruence.
  - apply Eff_same. congruence.
  - eapply Eff_dir with (b := b2); eauto. congruence.
  - rewrite E1 in D2. eapply Eff_out with (b := b2); eauto.
  - rewrite D in E2. eapply Eff_dir with (b := b); eauto.
  - rewrite F in E2. eapply Eff_out with (b := b); eauto.
  - eapply Eff_out with (b := b2); eauto.
Qed.

Lemma effect_refl : forall cwd bs f q, Effect cwd bs f f q.
Proof. intros. now apply Eff_same. Qed.

Lemma mkdirFrom_effect : forall O rest f pre f' okay, mkdirFrom O f pre rest = (f', okay) ->
  forall q, look f' q = look f q \/ (look f q = None /\ look f' q = Some EDir /\ exists r, pre ++ rest = q ++ r).
Proof.
  intros O. induction rest as [|c rest IH]; intros f pre f' okay H q; cbn [mkdirFrom] in H; [inversion H; auto|].
  destruct (look f (pre ++ [c])) as [[|]|] eqn:E.
  - inversion H; auto.
  - destruct (IH _ _ _ _ H q) as [K|(K1 & K2 & r & K3)]; auto. right. repeat split; auto. exists r. rewrite <- K3, <- app_assoc. reflexivity.
  - destruct (oMkdir O (pre ++ [c])); [inversion H; auto|].
    destruct (IH _ _ _ _ H q) as [K|(K1 & K2 & r & K3)].
    + destruct (peq q (pre ++ [c])) eqn:Q.
      * apply peq_iff in Q. subst q. right. rewrite K, look_same by (destruct pre; discriminate). repeat split; auto.
        exists rest. now rewrite <- app_assoc.
      * left. rewrite K. apply look_other. intros ->. rewrite peq_refl in Q. discriminate.
    + right. rewrite look_other in K1. 2:{ intros ->. rewrite look_same in K1 by (destruct pre; discriminate). discriminate. }
      repeat split; auto. exists r. rewrite <- K3, <- app_assoc. reflexivity.
Qed.

Lemma ensureOut_effect : forall O cwd bs b f f' e, In (Some b) bs -> ensureOut O f cwd (bOut b) = (f', e) -> forall q, Effect cwd bs f f' q.
Proof.
  intros O cwd bs b f f' e B H q. unfold ensureOut in H. destruct (stat O f cwd (bOut b)); try (inversion H; subst; apply effect_refl).
  destruct (mkdirAll O f cwd (bOut b)) as [f1 okay] eqn:M. inversion H; subst. unfold mkdirAll in M.
  destruct (pathOf cwd (bOut b)) as [p|] eqn:P; [|inversion M; subst; apply effect_refl].
  destruct (mkdirFrom_effect _ _ _ _ _ _ M q) as [K|(K1 & K2 & r & K3)]; [now apply Eff_same|].
  eapply Eff_dir with (b := b); eauto.
Qed.

Lemma generateFile_effect : forall X C O cwd bs b dir out stem f f' o oc, In (Some b) bs -> pathOf cwd (bSource b) = Some dir -> pathOf cwd (bOut b) = Some out ->
  generateFile X C O (bPackage b) (dir ++ [stem ++ str ".cddl"]) (out ++ [stem ++ str ".go"]) f = (f', o, oc) ->
  forall q, Effect cwd bs f f' q.
Proof.
  intros X C O cwd bs b dir out stem f f' o oc B HD HO H q.
  destruct (peq q (out ++ [stem ++ str ".go"])) eqn:Q.
  - apply peq_iff in Q. subst q.
    assert (NS : dir ++ [stem ++ str ".cddl"] <> out ++ [stem ++ str ".go"]).
    { intros E. apply app_inj_tail in E as [_ E]. symmetry in E. now apply suffix_differs in E. }
    pose proof (C42_only_output _ _ _ _ _ _ _ _ _ _ H _ NS) as KS.
    assert (RD : readFile O f (dir ++ [stem ++ str ".cddl"]) <> None -> look f (dir ++ [stem ++ str ".cddl"]) <> None).
    { unfold readFile. destruct (_ || _); [congruence|]. destruct (look f _) as [[|]|]; congruence. }
    assert (ND : forall t, look f' (out ++ [stem ++ str ".go"]) = Some (EFile t) -> look f (out ++ [stem ++ str ".go"]) <> Some EDir).
    { intros t Ht E. assert (W : openWrite O true f (out ++ [stem ++ str ".go"]) = None).
      { unfold openWrite. rewrite E. now destruct (_ || _). }
      unfold generateFile in H. rewrite W in H. destruct (readFile _ _ _); inversion H; subst; congruence. }
    destruct (C42_output _ _ _ _ _ _ _ _ _ _ H) as [(_ & s & text & R & _ & L)|[(_ & -> & _)|(_ & L & R)]].
    + eapply Eff_out with (b := b); eauto. rewrite KS. apply RD. congruence.
    + apply effect_refl.
    + eapply Eff_out with (b := b); eauto. rewrite KS. auto.
  - apply Eff_same. eapply C42_only_output; eauto. intros ->. rewrite peq_refl in Q. discriminate.
Qed.

Lemma generateFiles_effect : forall X C O cwd bs b dir l f f' o oc, In (Some b) bs -> pathOf cwd (bSource b) = Some dir ->
  generateFiles X C O cwd b dir l f = (f', o, oc) -> forall q, Effect cwd bs f f' q.
Proof.
  intros X C O cwd bs b dir l. induction l as [|n l IH]; intros f f' o oc B HD H q; cbn [generateFiles] in H; [inversion H; apply effect_refl|].
  destruct (beq (ext n) (str ".cddl")) eqn:E; cbn [negb] in H; [|eauto].
  apply ext_iff in E as [stem ->]. rewrite outName_stem in H.
  destruct (ensureOut O f cwd (bOut b)) as [f1 [e|]] eqn:EO; [inversion H; subst; eapply ensureOut_effect; eauto|].
  destruct (pathOf cwd (bOut b)) as [out|] eqn:HO; [|inversion H; subst; eapply ensureOut_effect; eauto].
  destruct (generateFile _ _ _ _ _ _ f1) as [[f2 o1] oc1] eqn:G.
  assert (K : forall q, Effect cwd bs f f2 q).
  { eapply effect_trans; [eapply ensureOut_effect; eauto|eapply generateFile_effect; eauto]. }
  destruct oc1; try (inversion H; subst; apply K).
  destruct (generateFiles X C O cwd b dir l f2) as [[f3 o3] e3] eqn:R. inversion H; subst.
  eapply effect_trans; [exact K|eapply IH; eauto].
Qed.

Lemma generateBuild_effect : forall X C O cwd bs b f f' o oc, In b bs -> generateBuild X C O cwd b f = (f', o, oc) ->
  forall q, Effect cwd bs f f' q.
Proof.
  intros X C O cwd bs [b|] f f' o oc B H q; [|inversion H; apply effect_refl]. cbn [generateBuild] in H.
  destruct (stat O f cwd (bSource b)); try (inversion H; subst; apply effect_refl).
  destruct (pathOf cwd (bSource b)) as [dir|] eqn:HD; [|inversion H; apply effect_refl].
  destruct (readDir O f dir) as [l|]; [|inversion H; apply effect_refl].
  eapply generateFiles_effect; eauto.
Qed.

Lemma generateBuilds_effect : forall X C O cwd bs l f f' o oc, incl l bs -> generateBuilds X C O cwd l f = (f', o, oc) ->
  forall q, Effect cwd bs f f' q.
Proof.
  intros X C O cwd bs. induction l as [|b l IH]; intros f f' o oc HI H q; cbn [generateBuilds] in H; [inversion H; apply effect_refl|].
  destruct (generateBuild X C O cwd b f) as [[f1 o1] oc1] eqn:E.
  assert (K : forall q, Effect cwd bs f f1 q) by (eapply generateBuild_effect; eauto; apply HI; simpl; auto).
  destruct oc1; try (inversion H; subst; apply K).
  destruct (generateBuilds X C O cwd l f1) as [[f2 o2] e2] eqn:R. inversion H; subst.
  eapply effect_trans; [exact K|]. eapply IH; eauto. intros x Hx. apply HI. simpl; auto.
Qed.

(** The builds generate works through. *)
Definition buildsOf (C : CliExt) (O : OsExt) (f : fs) (cwd : path) : list (option build) :=
  match loadConfigFromDir C O f cwd with
  | inl _ => []
  | inr (Some c) => cfBuilds c
  | inr None => [Some (mkBuild [] (str ".") (str "dist/"))]
  end.

(** The whole command, however it ends: a path changes only by being created as a
    directory on the way to an output directory, or as the output file of a source. *)
Theorem C42_command : forall X C O cwd f f' o oc, generateCmd X C O (Some cwd) f = (f', o, oc) ->
  forall q, Effect cwd (buildsOf C O f cwd) f f' q.
Proof.
  intros X C O cwd f f' o oc H q. unfold generateCmd, buildsOf in *. destruct (loadConfigFromDir C O f cwd) as [e|[c|]].
  - inversion H; apply effect_refl.
  - eapply generateBuilds_effect; eauto. apply incl_refl.
  - eapply generateBuilds_effect; eauto. apply incl_refl.
Qed.

(** In particular no file is changed unless its name ends in ".go": sources and
    configuration files are safe. *)
Theorem C58_sources_safe : forall X C O wd f f' o oc p n c, generateCmd X C O wd f = (f', o, oc) ->
  look f (p ++ [n]) = Some (EFile c) -> (forall stem, n <> stem ++ str ".go") -> look f' (p ++ [n]) = Some (EFile c).
Proof.
  intros X C O wd f f' o oc p n c H L N. destruct wd as [cwd|]; [|inversion H; subst; auto].
  destruct (C42_command _ _ _ _ _ _ _ _ H (p ++ [n])) as [E|? ? ? ? ? ? ? ?|b q src stem c' B P S E K D F]; try congruence.
  apply app_inj_tail in E as [_ E]. exfalso. eapply N; eauto.
Qed.

(** ** The build loop *)

(** A file that fails ends the command; the files after it are not looked at. *)
Theorem C42_stops : forall X C O cwd b dir l f f' o oc, generateFiles X C O cwd b dir l f = (f', o, oc) -> oc <> Success ->
  exists l1 n l2 f1 o1 o2, l = l1 ++ n :: l2 /\ isSource n /\ generateFiles X C O cwd b dir l1 f = (f1, o1, Success) /\
    generateFiles X C O cwd b dir [n] f1 = (f', o2, oc) /\ o = o1 ++ o2 /\
    forall l3, generateFiles X C O cwd b dir (l1 ++ n :: l3) f = (f', o, oc).
Proof.
  intros X C O cwd b dir l. induction l as [|n l IH]; intros f f' o oc H N; [cbn in H; inversion H; congruence|].
  assert (ST : generateFiles X C O cwd b dir (n :: l) f = (f', o, oc)) by exact H.
  cbn [generateFiles] in H. destruct (beq (ext n) (str ".cddl")) eqn:E; cbn [negb] in H.
  - assert (HS : isSource n) by (now apply ext_iff).
    assert (FAIL : forall f1 o1 oc1, oc1 <> Success -> (forall r, generateFiles X C O cwd b dir (n :: r) f = (f1, o1, oc1)) ->
      exists l1 n0 l2 f1' o1' o2, n :: l = l1 ++ n0 :: l2 /\ isSource n0 /\ generateFiles X C O cwd b dir l1 f = (f1', o1', Success) /\
      generateFiles X C O cwd b dir [n0] f1' = (f1, o2, oc1) /\ o1 = o1' ++ o2 /\
      forall l3, generateFiles X C O cwd b dir (l1 ++ n0 :: l3) f = (f1, o1, oc1)).
    { intros f1 o1 oc1 N1 HR. exists [], n, l, f, [], o1. repeat split; auto. }
    destruct (ensureOut O f cwd (bOut b)) as [f1 [e|]] eqn:EO.
    { inversion H; subst. apply FAIL; auto. intros r. cbn [generateFiles]. now rewrite E, EO. }
    destruct (pathOf cwd (bOut b)) as [out|] eqn:HO; [|inversion H; subst; apply FAIL; auto; intros r; cbn [generateFiles]; now rewrite E, EO, HO].
    destruct (generateFile _ _ _ _ _ _ f1) as [[f2 o2] oc2] eqn:G.
    destruct oc2; try (inversion H; subst; apply FAIL; auto; intros r; cbn [generateFiles]; now rewrite E, EO, HO, G).
    destruct (generateFiles X C O cwd b dir l f2) as [[f3 o3] oc3] eqn:R. inversion H; subst.
    destruct (IH _ _ _ _ R N) as (l1 & m & l2 & f1' & o1 & o2' & -> & HM & R1 & R2 & -> & R3).
    exists (n :: l1), m, l2, f1', (o2 ++ o1), o2'. rewrite <- app_assoc. split; [reflexivity|]. split; auto.
    split. { cbn [generateFiles]. rewrite E, EO, HO, G, R1. reflexivity. }
    split; auto. split; auto. intros l3. cbn [app generateFiles]. rewrite E, EO, HO, G, R3. reflexivity.
  - destruct (IH _ _ _ _ H N) as (l1 & m & l2 & f1' & o1 & o2' & -> & HM & R1 & R2 & -> & R3).
    exists (n :: l1), m, l2, f1', o1, o2'. split; [reflexivity|]. split; auto.
    split. { cbn [generateFiles]. rewrite E. exact R1. }
    split; auto. split; auto. intros l3. cbn [app generateFiles]. rewrite E. apply R3.
Qed.

Lemma readFile_look : forall O f p s, readFile O f p = Some s -> look f p = Some (EFile s).
Proof. intros O f p s. unfold readFile. destruct (_ || _); [discriminate|]. destruct (look f p) as [[|]|]; congruence. Qed.

(** When a build succeeds, every source in the directory has its output, generated from
    the contents it had before the command. *)
Theorem C42_all_outputs : forall X C O cwd b dir l f f' o, pathOf cwd (bSource b) = Some dir -> NoDup l ->
  generateFiles X C O cwd b dir l f = (f', o, Success) ->
  forall stem, In (stem ++ str ".cddl") l -> exists out s text, pathOf cwd (bOut b) = Some out /\
    look f (dir ++ [stem ++ str ".cddl"]) = Some (EFile s) /\ Compiled X C (bPackage b) s text /\
    look f' (out ++ [stem ++ str ".go"]) = Some (EFile text).
Proof.
  intros X C O cwd b dir l f f' o HD ND H stem HI.
  assert (KEEP : forall l f f' o oc, generateFiles X C O cwd b dir l f = (f', o, oc) -> ~ In (stem ++ str ".cddl") l ->
    forall out t, pathOf cwd (bOut b) = Some out -> look f (out ++ [stem ++ str ".go"]) = Some (EFile t) ->
    look f' (out ++ [stem ++ str ".go"]) = Some (EFile t)).
  { clear. induction l as [|n l IH]; intros f f' o oc H HN out t HO L; cbn [generateFiles] in H; [inversion H; subst; auto|].
    assert (HN' : ~ In (stem ++ str ".cddl") l) by (intros K; apply HN; simpl; auto).
    destruct (beq (ext n) (str ".cddl")) eqn:E; cbn [negb] in H; [|eauto].
    apply ext_iff in E as [stem' ->]. rewrite outName_stem in H.
    destruct (ensureOut O f cwd (bOut b)) as [f1 e] eqn:EO.
    assert (L1 : look f1 (out ++ [stem ++ str ".go"]) = Some (EFile t)).
    { unfold ensureOut in EO. destruct (stat O f cwd (bOut b)); try (inversion EO; subst; auto; fail).
      destruct (mkdirAll O f cwd (bOut b)) as [fm okay] eqn:M. inversion EO; subst. unfold mkdirAll in M. rewrite HO in M.
      destruct (mkdirFrom_effect _ _ _ _ _ _ M (out ++ [stem ++ str ".go"])) as [K|(K & _)]; congruence. }
    destruct e as [e|]; [inversion H; subst; auto|]. rewrite HO in H.
    destruct (generateFile _ _ _ _ _ _ f1) as [[f2 o2] oc2] eqn:G.
    assert (L2 : look f2 (out ++ [stem ++ str ".go"]) = Some (EFile t)).
    { rewrite <- L1. eapply C42_only_output; eauto. intros K. apply app_inj_tail in K as [_ K]. apply app_inv_tail in K.
      subst stem'. apply HN. simpl; auto. }
    destruct oc2; try (inversion H; subst; auto; fail).
    destruct (generateFiles X C O cwd b dir l f2) as [[f3 o3] oc3] eqn:R. inversion H; subst. eauto. }
  revert f f' o H HI. induction l as [|n l IH]; intros f f' o H HI; [contradiction|].
  inversion ND as [|? ? HN ND']; subst. cbn [generateFiles] in H.
  destruct (beq (ext n) (str ".cddl")) eqn:E; cbn [negb] in H.
  2:{ destruct HI as [->|HI]; [|eauto]. assert (beq (ext (stem ++ str ".cddl")) (str ".cddl") = true) by (apply ext_iff; eauto). congruence. }
  apply ext_iff in E as [stem' ->]. rewrite outName_stem in H.
  destruct (ensureOut O f cwd (bOut b)) as [f1 [e|]] eqn:EO; [discriminate|].
  destruct (pathOf cwd (bOut b)) as [out|] eqn:HO; [|discriminate].
  destruct (generateFile _ _ _ _ _ _ f1) as [[f2 o2] oc2] eqn:G. destruct oc2; try discriminate.
  destruct (generateFiles X C O cwd b dir l f2) as [[f3 o3] oc3] eqn:R. inversion H; subst.
  assert (EF : forall q, Effect cwd [Some b] f f1 q) by (eapply ensureOut_effect; [left; reflexivity|exact EO]).
  destruct HI as [K|HI].
  - apply app_inv_tail in K. subst stem'.
    destruct (C42_output _ _ _ _ _ _ _ _ _ _ G) as [(_ & s & text & RF & CO & L)|[(N & _)|(N & _)]]; try congruence.
    exists out, s, text. split; auto. split; [|split; auto].
    + apply readFile_look in RF. destruct (EF (dir ++ [stem ++ str ".cddl"])) as [Q|? ? ? ? ? ? ? ?|? ? ? ? ? ? ? ? Q ? ? ?]; [|match goal with H : look f1 _ = Some EDir |- _ => pose proof (eq_trans (eq_sym RF) H) as W; discriminate W end|].
      * rewrite <- Q. exact RF.
      * apply app_inj_tail in Q as [_ Q]. symmetry in Q. now apply suffix_differs in Q.
    + eapply KEEP; eauto.
  - destruct (IH ND' _ _ _ R HI) as (out' & s & text & P' & L & CO & L'). assert (out' = out) by congruence. subst out'.
    exists out, s, text. split; auto. split; [|auto].
    assert (EF2 : forall q, Effect cwd [Some b] f f2 q).
    { eapply effect_trans; [exact EF|]. eapply generateFile_effect; eauto. simpl; auto. }
    destruct (EF2 (dir ++ [stem ++ str ".cddl"])) as [Q|? ? ? ? ? ? ? ?|? ? ? ? ? ? ? ? Q ? ? ?]; [|match goal with H : look f2 _ = Some EDir |- _ => pose proof (eq_trans (eq_sym L) H) as W; discriminate W end|].
    + rewrite <- Q. exact L.
    + apply app_inj_tail in Q as [_ Q]. symmetry in Q. now apply suffix_differs in Q.
Qed.

(** A build, with the listing of the directory as it is. *)
Theorem C42_build_outputs : forall X C O cwd b f f' o, generateBuild X C O cwd (Some b) f = (f', o, Success) ->
  exists dir, pathOf cwd (bSource b) = Some dir /\ look f dir = Some EDir /\
  forall stem, look f (dir ++ [stem ++ str ".cddl"]) <> None -> exists out s text, pathOf cwd (bOut b) = Some out /\
    look f (dir ++ [stem ++ str ".cddl"]) = Some (EFile s) /\ Compiled X C (bPackage b) s text /\
    look f' (out ++ [stem ++ str ".go"]) = Some (EFile text).
Proof.
  intros X C O cwd b f f' o H. cbn [generateBuild] in H. destruct (stat O f cwd (bSource b)); try discriminate.
  destruct (pathOf cwd (bSource b)) as [dir|] eqn:HD; [|discriminate].
  destruct (readDir O f dir) as [l|] eqn:R; [|discriminate]. exists dir. split; auto.
  unfold readDir in R. destruct (_ || _); [discriminate|]. destruct (look f dir) as [[|]|] eqn:LD; try discriminate. inversion R; subst.
  split; auto. intros stem HS. apply names_in in HS.
  eapply C42_all_outputs; eauto. apply ordered_nodup, names_ordered.
Qed.

(** ** Without a configuration *)

Lemma visit_pkg : forall X n g g', visit X n g = Ok g' -> gPkg g' = gPkg g.
Proof.
  intros X. fix IH 1. intros n g g' H. destruct n; cbn [visit] in H; try (injection H as <-; reflexivity).
  - destruct k; try discriminate H; injection H as <-; reflexivity.
  - match goal with |- _ => apply (proj1 (Props_Codegen.visit_rule X p _ _ tc g g')) in H end. destruct H as (ds & k & _ & ->). reflexivity.
  - revert g H. induction rules as [|r rules IHr]; intros g H; [injection H as <-; reflexivity|].
    destruct (visit X r g) as [g1| | |] eqn:E; try discriminate H. cbn [rbind] in H. rewrite (IHr _ H). eapply IH; eauto.
Qed.

(** The default build names no package: the text of every file it writes is that of an
    empty package name. *)
Theorem C59_default_package : forall X C O cwd f f' o, loadConfigFromDir C O f cwd = inr None ->
  generateCmd X C O (Some cwd) f = (f', o, Success) ->
  forall stem, look f (cwd ++ [stem ++ str ".cddl"]) <> None ->
  exists ds, look f' (cwd ++ [str "dist"; stem ++ str ".go"]) = Some (EFile (headerText (base (hd [] (cArgs C))) (tl (cArgs C)) ++ cFormat C [] ds)).
Proof.
  intros X C O cwd f f' o HL H stem HS. unfold generateCmd in H. rewrite HL in H.
  change (cfBuilds defaultConfig) with [Some (mkBuild [] (str ".") (str "dist/"))] in H. cbn [generateBuilds] in H.
  destruct (generateBuild X C O cwd _ f) as [[f1 o1] oc1] eqn:B. destruct oc1; try discriminate.
  inversion H; subst. destruct (C42_build_outputs _ _ _ _ _ _ _ _ B) as (dir & HD & _ & K).
  assert (dir = cwd) by (inversion HD; reflexivity). subst dir.
  destruct (K stem HS) as (out & s & text & HO & _ & (root & p & g & _ & V & ->) & L).
  assert (out = cwd ++ [str "dist"]) by (inversion HO; reflexivity). subst out. rewrite <- app_assoc in L. cbn [app] in L.
  unfold fileText in L. exists (gDecls (genString (cGen C) g)).
  assert (PK : gPkg (genString (cGen C) g) = []).
  { unfold genString. cbn [gPkg]. apply visit_pkg in V. exact V. }
  rewrite PK in L. exact L.
Qed.

(** ** Repeating *)

Lemma blocked_same : forall f f' p, (forall a c r, p = a ++ c :: r -> look f' a = look f a) -> blocked f' p = blocked f p.
Proof.
  intros f f' p H. unfold blocked.
  assert (K : forall rest pre, (forall a c r, rest = a ++ c :: r -> look f' (pre ++ a) = look f (pre ++ a)) -> blockedAt f' pre rest = blockedAt f pre rest).
  { induction rest as [|c rest IH]; intros pre HK; cbn [blockedAt]; auto.
    pose proof (HK [] c rest eq_refl) as E. rewrite app_nil_r in E. rewrite E. rewrite IH; auto.
    intros a d r ->. rewrite <- app_assoc. apply (HK (c :: a) d r). reflexivity. }
  apply K. intros a c r E. cbn [app]. eauto.
Qed.

(** Generating again from the same source gives the same file. *)
Theorem C60_repeatable : forall X C O pkg src out f f' o, (forall r, src <> out ++ r) -> generateFile X C O pkg src out f = (f', o, Success) ->
  exists f'', generateFile X C O pkg src out f' = (f'', o, Success) /\ forall q, look f'' q = look f' q.
Proof.
  intros X C O pkg src out f f' o NP H. assert (N : src <> out) by (intros ->; apply (NP []); now rewrite app_nil_r).
  pose proof (C42_only_output _ _ _ _ _ _ _ _ _ _ H) as LQ. pose proof (LQ src N) as LS.
  assert (B1 : blocked f' src = blocked f src).
  { apply blocked_same. intros a c r E. apply LQ. intros ->. apply (NP (c :: r)). exact E. }
  assert (B2 : blocked f' out = blocked f out).
  { apply blocked_same. intros a c r E. apply LQ. intros ->. apply (f_equal (@length bytes)) in E. rewrite app_length in E. cbn in E. lia. }
  destruct (C42_output _ _ _ _ _ _ _ _ _ _ H) as [(_ & s & text & RF & (root & p & g & P & V & ->) & L)|[(K & _)|(K & _)]]; try congruence.
  assert (W : oWrite O out = false).
  { unfold generateFile in H. rewrite RF, P in H. destruct (openWrite O true f out); [|discriminate]. cbn [rootNode] in H. rewrite V in H.
    destruct (oWrite O out); [discriminate|reflexivity]. }
  assert (OP : oOpen O out || blocked f out = false).
  { unfold generateFile in H. rewrite RF in H. unfold openWrite in H. destruct (oOpen O out || blocked f out); [discriminate|reflexivity]. }
  assert (E : exists f'', generateFile X C O pkg src out f' = (f'', [], Success)).
  { unfold generateFile. assert (R : readFile O f' src = readFile O f src) by (unfold readFile; rewrite B1, LS; reflexivity).
    rewrite R, RF. unfold openWrite. rewrite B2, OP, L, P. cbn [rootNode]. rewrite V, W. eauto. }
  assert (EO : o = []).
  { unfold generateFile in H. rewrite RF, P in H. destruct (openWrite O true f out); [|discriminate]. cbn [rootNode] in H. rewrite V, W in H. congruence. }
  subst o. destruct E as (f'' & E). exists f''. split; auto. intros q. destruct (peq q out) eqn:Q.
  - apply peq_iff in Q. subst q.
    destruct (C42_output _ _ _ _ _ _ _ _ _ _ E) as [(_ & s' & text' & RF' & (root' & p' & g' & P' & V' & ->) & L')|[(K & _)|(K & _)]]; try congruence.
    apply readFile_look in RF. apply readFile_look in RF'. rewrite L, L'. congruence.
  - eapply C42_only_output; eauto. intros ->. rewrite peq_refl in Q. discriminate.
Qed.

(** ** Degenerate configurations *)

(** A null build crashes, and a build without an output directory fails on its first
    source; in both cases nothing is written by it. *)
Theorem C61_null_build : forall X C O cwd r f, generateBuilds X C O cwd (None :: r) f = (f, [], Crash).
Proof. reflexivity. Qed.

Theorem C61_no_output : forall X C O cwd b dir l f n, bOut b = [] -> In n l -> isSource n ->
  generateFiles X C O cwd b dir l f = (f, [], Failure EMkdir).
Proof.
  intros X C O cwd b dir l f n HB HI HN. induction l as [|m l IH]; [contradiction|]. cbn [generateFiles].
  destruct (beq (ext m) (str ".cddl")) eqn:E; cbn [negb].
  - rewrite HB. reflexivity.
  - apply IH. destruct HI as [->|HI]; auto. apply ext_iff in HN. congruence.
Qed.

(** ** init *)

Definition configPath (cwd : path) : path := cwd ++ [str "cddlc.json"].

Theorem C43_exists : forall O cwd f, look f (configPath cwd) <> None -> exists e, initCmd O (Some cwd) f = (f, Failure e).
Proof.
  intros O cwd f H. unfold initCmd, statP. fold (configPath cwd). destruct (_ || _); [eauto|].
  destruct (look f (configPath cwd)) as [[|]|]; eauto. congruence.
Qed.

Lemma configPath_root : forall cwd, configPath cwd <> [].
Proof. intros cwd. unfold configPath. destruct cwd; discriminate. Qed.

(** The configuration file, line by line: its indentation in tabs and its text. *)
Definition configText : bytes :=
  flat_map (fun '(n, l) => repeat 9 n ++ str l ++ [10])
    [(0%nat, "{");
     (1%nat, """version"": ""1"",");
     (1%nat, """plugins"": [],");
     (1%nat, """builds"": [");
     (2%nat, "{");
     (3%nat, """package"": """",");
     (3%nat, """src"": "".""," );
     (3%nat, """output"": ""dist/""");
     (2%nat, "}");
     (1%nat, "],");
     (1%nat, """options"": null");
     (0%nat, "}")].

(** Success creates the file with the default configuration, and it was not there. *)
Theorem C43_creates : forall O cwd f f', initCmd O (Some cwd) f = (f', Success) ->
  look f (configPath cwd) = None /\ look f' (configPath cwd) = Some (EFile configText) /\
  forall q, q <> configPath cwd -> look f' q = look f q.
Proof.
  intros O cwd f f' H. unfold initCmd, statP in H. fold (configPath cwd) in H. destruct (_ || _); [discriminate|].
  destruct (look f (configPath cwd)) as [[|]|] eqn:L; try discriminate.
  destruct (openWrite O false f (configPath cwd)) as [f1|] eqn:E; [|discriminate].
  destruct (oWrite O (configPath cwd)); [discriminate|]. injection H as <-.
  pose proof (configPath_root cwd) as NR.
  assert (L1 : look f1 (configPath cwd) = Some (EFile [])).
  { unfold openWrite in E. destruct (_ || _); [discriminate|]. rewrite L in E.
    destruct (look f (removelast (configPath cwd))) as [[|]|]; inversion E; subst. now apply look_same. }
  split; auto. split; [erewrite append_same; eauto; reflexivity|].
  intros q N. rewrite append_other by auto. eapply openWrite_other; eauto.
Qed.

(** However it ends, no other path changes, and an existing file is never touched. *)
Theorem C43_only_config : forall O wd f f' oc q, initCmd O wd f = (f', oc) ->
  (look f q <> None -> look f' q = look f q) /\ (forall cwd, wd = Some cwd -> q <> configPath cwd -> look f' q = look f q).
Proof.
  intros O [cwd|] f f' oc q H; [|inversion H; auto].
  assert (K : f' = f \/ (look f (configPath cwd) = None /\ forall q, q <> configPath cwd -> look f' q = look f q)).
  { unfold initCmd, statP in H. fold (configPath cwd) in H. destruct (_ || _); [inversion H; auto|].
    destruct (look f (configPath cwd)) as [[|]|] eqn:L; try (inversion H; auto; fail).
    destruct (openWrite O false f (configPath cwd)) as [f1|] eqn:E; [|inversion H; auto]. right. split; auto. intros p N.
    destruct (oWrite O (configPath cwd)); injection H as <- <-.
    - eapply openWrite_other; eauto.
    - rewrite append_other by auto. eapply openWrite_other; eauto. }
  destruct K as [->|[K1 K2]]; [auto|]. split.
  - intros N. apply K2. intros ->. congruence.
  - intros cwd' E N. inversion E; subst. auto.
Qed.

(** Nothing stands in the way: it succeeds. *)
Theorem C43_possible : forall O cwd f, look f (configPath cwd) = None -> look f cwd = Some EDir -> blocked f (configPath cwd) = false ->
  oStat O (configPath cwd) = false -> oOpen O (configPath cwd) = false -> oWrite O (configPath cwd) = false ->
  exists f', initCmd O (Some cwd) f = (f', Success).
Proof.
  intros O cwd f L D B S P W. unfold initCmd, statP. fold (configPath cwd). rewrite S, B, L. cbn [orb].
  unfold openWrite. rewrite P, B, L. cbn [orb]. unfold configPath at 1. rewrite removelast_last, D, W. eauto.
Qed.

Theorem C43_twice : forall O cwd f f', initCmd O (Some cwd) f = (f', Success) -> exists e, initCmd O (Some cwd) f' = (f', Failure e).
Proof. intros O cwd f f' H. apply C43_creates in H as (_ & H & _). apply C43_exists. congruence. Qed.

(** ** Configuration files *)

(** A candidate: a name that starts with "cddlc.". *)
Definition Candidate (f : fs) (dir : path) (n : bytes) : Prop := look f (dir ++ [n]) <> None /\ exists r, n = str "cddlc." ++ r.

(** The least candidate in the order of Go strings. *)
Definition First (f : fs) (dir : path) (n : bytes) : Prop :=
  Candidate f dir n /\ forall m, Candidate f dir m -> m = n \/ blt n m = true.

Lemma hasPrefix_iff : forall p s, hasPrefix s p = true <-> exists r, s = p ++ r.
Proof.
  induction p as [|x p IH]; intros s; [split; [exists s; reflexivity|destruct s; reflexivity]|].
  destruct s as [|y s]; cbn [hasPrefix app]; [split; [discriminate|intros [r E]; discriminate]|].
  rewrite andb_true_iff, Z.eqb_eq, IH. split.
  - intros [-> [r ->]]. eauto.
  - intros [r E]. inversion E; eauto.
Qed.

Lemma first_filter : forall (q : bytes -> bool) l, Ordered l ->
  (filter q l = [] /\ forall n, In n l -> q n = false) \/
  (exists n r, filter q l = n :: r /\ In n l /\ q n = true /\ forall m, In m l -> q m = true -> m = n \/ blt n m = true).
Proof.
  intros q l H. induction H as [|n l HF HO IH]; cbn [filter]; [left; split; auto; intros ? []|].
  destruct (q n) eqn:E.
  - right. exists n, (filter q l). repeat split; simpl; auto. intros m [->|HI] _; auto. right. rewrite Forall_forall in HF. auto.
  - destruct IH as [[E1 E2]|(m & r & E1 & E2 & E3 & E4)].
    + left. split; auto. intros m [->|HI]; auto.
    + right. exists m, r. repeat split; simpl; auto. intros k [->|HI] Hk; [congruence|auto].
Qed.

(** The directory can be listed and its path contains no pattern characters. *)
Definition Listable (O : OsExt) (f : fs) (dir : path) : Prop :=
  existsb hasMeta dir = false /\ look f dir = Some EDir /\ blocked f dir = false /\ oStat O dir = false /\ oList O dir = false.

Lemma glob_listable : forall C O f dir, Listable O f dir ->
  globConfig C O f dir = Some (map (fun n => dir ++ [n]) (filter (fun n => hasPrefix n (str "cddlc.")) (names f dir))).
Proof.
  intros C O f dir (M & L & B & S & R). unfold globConfig, statP, readDir. rewrite M, L, B, S, R. reflexivity.
Qed.

(** The default configuration is used exactly if there is no candidate; otherwise the
    first one is loaded, and the others are not looked at. *)
Theorem C44_first : forall C O f dir, Listable O f dir ->
  (loadConfigFromDir C O f dir = inr None <-> forall n, ~ Candidate f dir n) /\
  (forall n, First f dir n -> loadConfigFromDir C O f dir = match loadConfig C O f (dir ++ [n]) with inl e => inl e | inr c => inr (Some c) end).
Proof.
  intros C O f dir HL. unfold loadConfigFromDir. rewrite (glob_listable C O f dir HL).
  assert (CI : forall n, Candidate f dir n <-> In n (names f dir) /\ hasPrefix n (str "cddlc.") = true).
  { intros n. unfold Candidate. rewrite names_in, hasPrefix_iff. tauto. }
  destruct (first_filter (fun n => hasPrefix n (str "cddlc.")) (names f dir) (names_ordered f dir)) as [[E1 E2]|(n & r & E1 & E2 & E3 & E4)]; rewrite E1; cbn [map].
  - split.
    + split; auto. intros _ n H. apply CI in H as [H1 H2]. rewrite (E2 _ H1) in H2. discriminate.
    + intros n [H _]. apply CI in H as [H1 H2]. rewrite (E2 _ H1) in H2. discriminate.
  - split.
    + split; [destruct (loadConfig C O f (dir ++ [n])); discriminate|]. intros H. exfalso. apply (H n). apply CI; auto.
    + intros m [H1 H2]. destruct (H2 n) as [K|K]; [apply CI; auto|subst; reflexivity|].
      apply CI in H1 as [H1 H1']. destruct (E4 m H1 H1') as [K'|K']; [subst; reflexivity|].
      pose proof (blt_trans _ _ _ K K') as Q. rewrite blt_irrefl in Q. discriminate.
Qed.

(** A configuration is loaded only from a file of one of the two names, by its decoder. *)
Theorem C44_names : forall C O f dir c, Listable O f dir -> loadConfigFromDir C O f dir = inr (Some c) ->
  exists n text, First f dir n /\ look f (dir ++ [n]) = Some (EFile text) /\
    ((n = str "cddlc.json" /\ cJson C text = Some c) \/ (n = str "cddlc.yaml" /\ cYaml C text = Some c)).
Proof.
  intros C O f dir c HL H.
  assert (HF : exists n, First f dir n).
  { destruct (first_filter (fun n => hasPrefix n (str "cddlc.")) (names f dir) (names_ordered f dir)) as [[E1 E2]|(n & r & E1 & E2 & E3 & E4)].
    - exfalso. unfold loadConfigFromDir in H. rewrite (glob_listable C O f dir HL), E1 in H. discriminate.
    - exists n. split.
      + split; [now apply names_in|now apply hasPrefix_iff].
      + intros m [H1 H2]. apply names_in in H1. apply hasPrefix_iff in H2. auto. }
  destruct HF as [n HF]. destruct (C44_first C O f dir HL) as [_ K]. rewrite (K n HF) in H.
  destruct (loadConfig C O f (dir ++ [n])) as [e|c'] eqn:E; [discriminate|]. injection H as ->.
  unfold loadConfig in E. destruct (_ || _); [discriminate|]. destruct (look f (dir ++ [n])) as [en|] eqn:L; [|discriminate].
  cbn zeta in E. rewrite last_last in E.
  destruct (beq n (str "cddlc.json")) eqn:B1; [|destruct (beq n (str "cddlc.yaml")) eqn:B2; [|discriminate]];
    destruct en as [text|]; try discriminate; exists n, text.
  - destruct (cJson C text) eqn:J; inversion E; subst. repeat split; try apply HF; auto. left. split; auto. now apply beq_iff.
  - destruct (cYaml C text) eqn:J; inversion E; subst. repeat split; try apply HF; auto. right. split; auto. now apply beq_iff.
Qed.

(** So any other file "cddlc.…" that sorts before "cddlc.json" disables it: the command
    fails. *)
Theorem C44_shadowed : forall X C O f dir n, Listable O f dir -> Candidate f dir n ->
  blt n (str "cddlc.json") = true -> exists e, generateCmd X C O (Some dir) f = (f, [], Failure e).
Proof.
  intros X C O f dir n HL HC HB. unfold generateCmd. destruct (loadConfigFromDir C O f dir) as [e|[c|]] eqn:E; [eauto| |].
  - exfalso. destruct (C44_names _ _ _ _ _ HL E) as (m & text & [_ HM] & _ & HN).
    destruct (HM n HC) as [->|K].
    + destruct HN as [[-> _]|[-> _]]; vm_compute in HB; discriminate.
    + pose proof (blt_trans _ _ _ K HB) as Q. destruct HN as [[-> _]|[-> _]]; vm_compute in Q; discriminate.
  - exfalso. apply (proj1 (proj1 (C44_first C O f dir HL)) E n HC).
Qed.

(** ** lex *)

(** Number of ILLEGAL tokens. *)
Fixpoint illegal (ts : list tokInfo) : Z :=
  match ts with
  | [] => 0
  | t :: r => match tTok t with ILLEGAL => 1 | _ => 0 end + illegal r
  end.

Lemma illegal_filter : forall ts, zlen (filter (fun t => teq (tTok t) ILLEGAL) ts) = illegal ts.
Proof.
  induction ts as [|t ts IH]; [reflexivity|]. cbn [filter illegal]. destruct (teq (tTok t) ILLEGAL) eqn:Q; unfold teq in Q;
    destruct (token_eq_dec (tTok t) ILLEGAL) as [E|E]; try discriminate.
  - rewrite E, <- IH. unfold zlen. cbn [length]. lia.
  - rewrite IH. destruct (tTok t); try congruence; reflexivity.
Qed.

(** On a decodable source the command prints one line per token up to EOF and fails
    with the number of ILLEGAL tokens if there are any; or it crashes. *)
Theorem C45_lines : forall X O f p s, readFile O f p = Some s -> decodable s ->
  (scanAll X (S (length s)) s = Panic /\ lexCmd X O f [p] = ([], Crash)) \/
  (exists ts, scanAll X (S (length s)) s = Ok ts /\
     lexCmd X O f [p] = (map (fun t => posString (tPos t) ++ str ": " ++ tokenString (tTok t) ++ str " -> " ++ tLit t ++ [10]) ts,
                         if illegal ts =? 0 then Success else Failure (EIllegal (illegal ts)))).
Proof.
  intros X O f p s R D. unfold lexCmd. rewrite R. destruct (C01_decodable_reaches_eof X s D) as [->|[ts ->]]; [left; auto|].
  right. exists ts. split; auto. cbv zeta. rewrite illegal_filter.
  assert (0 <= illegal ts). { rewrite <- illegal_filter. unfold zlen. lia. }
  unfold tokenLine. destruct (Z.ltb_spec 0 (illegal ts)); destruct (Z.eqb_spec (illegal ts) 0); try lia; auto.
Qed.

(** On any other source it never ends normally. *)
Theorem C45_undecodable : forall X O f p s, readFile O f p = Some s -> bytesOk s -> ~ decodable s ->
  forall lines, lexCmd X O f [p] <> (lines, Success) /\ forall n, lexCmd X O f [p] <> (lines, Failure (EIllegal n)).
Proof.
  intros X O f p s R B D lines. unfold lexCmd. rewrite R. destruct (C01_eof_only_if_decodable X s B D) as [H _].
  destruct (scanAll X (S (length s)) s) as [ts| | |] eqn:E; [exfalso; eapply H; eauto| | |]; cbn; split; intros; discriminate.
Qed.

(** ** parse *)

(** The parse command succeeds whether or not there are diagnostics. *)
Theorem C62_status : forall X C O f p s root ds pr t, readFile O f p = Some s -> decodable s -> parse X s = Ok ((root, ds), pr) ->
  cMarshal C root = Some t ->
  exists outs, parseCmd X C O f [p] = (outs, Some t, Success) /\ Forall2 (Reported C s) (match ds with Some l => l | None => [] end) outs.
Proof.
  intros X C O f p s root ds pr t R D P M. unfold parseCmd. rewrite R, P. destruct ds as [ds|].
  - destruct (C26_reports X C s newEnvironment (parseFuel s) root ds pr D (le_n _) P) as (outs & E & F). rewrite E, M. eauto.
  - cbn. rewrite M. eauto.
Qed.

(** ** Examples *)

Definition noRefusals : OsExt := mkOs (fun _ => false) (fun _ => false) (fun _ => false) (fun _ => false) (fun _ => false) (fun _ => false).
Definition home : path := [str "p"].

(** [p] holds a good source, a bad one, an old output of the bad one, and no configuration. *)
Definition sampleFs : fs :=
  [(home, EDir); (home ++ [str "a.cddl"], EFile (str "a = int")); (home ++ [str "b.cddl"], EFile badDoc);
   (home ++ [str "c.cddl"], EFile (str "c = int")); (home ++ [str "dist"], EDir); (home ++ [str "dist"; str "b.go"], EFile (str "old"))].

Example C42_ex : let '(f', o, oc) := generateCmd X0 sampleCli noRefusals (Some home) sampleFs in
  oc = Failure EParser /\ length o = 1%nat /\
  look f' (home ++ [str "dist"; str "a.go"]) = Some (EFile (header [str "/bin/cddlc"; str "generate"] ++ str "text")) /\
  look f' (home ++ [str "dist"; str "b.go"]) = Some (EFile []) /\
  look f' (home ++ [str "dist"; str "c.go"]) = None.
Proof. vm_compute. repeat split. Qed.

(** An unterminated text literal at the start. *)
Example C57_ex : match parse X0 (str """abc") with Ok (r, _) => r | _ => (Some NNil, None) end = (None, None).
Proof. vm_compute. reflexivity. Qed.

Example C43_ex : exists f', initCmd noRefusals (Some home) sampleFs = (f', Success).
Proof. eexists. vm_compute. reflexivity. Qed.

Example C44_ex : let f := (home ++ [str "cddlc.bak"], EFile []) :: (home ++ [str "cddlc.json"], EFile defaultJson) :: sampleFs in
  Listable noRefusals f home /\ Candidate f home (str "cddlc.bak") /\ blt (str "cddlc.bak") (str "cddlc.json") = true /\
  generateCmd X0 sampleCli noRefusals (Some home) f = (f, [], Failure EBase).
Proof.
  cbv zeta. split; [vm_compute; repeat split|]. split; [split; [vm_compute; discriminate|exists (str "bak"); reflexivity]|].
  split; vm_compute; reflexivity.
Qed.

Example C45_ex : lexCmd X0 noRefusals [(home ++ [str "x"], EFile (str "a ^"))] [home ++ [str "x"]] =
  ([str "1:1: IDENT -> a" ++ [10]; str "1:3: ILLEGAL -> ^" ++ [10]; str "1:4: EOF -> " ++ [10]], Failure (EIllegal 1)).
Proof. vm_compute. reflexivity. Qed.

Example C62_ex : snd (parseCmd X0 sampleCli noRefusals sampleFs [home ++ [str "b.cddl"]]) = Success.
Proof. vm_compute. reflexivity. Qed.
