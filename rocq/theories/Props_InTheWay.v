(** Property C115: an output directory that cannot be there. *)
From Coq Require Import String.
From Verif Require Import Base Utf8 Token Ext Lexer Ast Env Diag Parser Repl Codegen Cli CliProofs Props_Lexer Props_Report Props_Cli Props_Generate.
Open Scope string_scope.
Open Scope list_scope.
Open Scope Z_scope.

(** ** Specification *)

(** A file is at [o] or on the way to it. *)
Definition Obstructed (f : fs) (o : path) : Prop := exists p r c, o = p ++ r /\ look f p = Some (EFile c).

(** The system refuses to make a directory that is missing on the way to [o], or [o] itself. *)
Definition Refused (O : OsExt) (f : fs) (o : path) : Prop := exists p c r, o = p ++ c :: r /\ look f (p ++ [c]) = None /\ oMkdir O (p ++ [c]) = true.

(** ** Proofs *)

Lemma obstructed_blocks : forall f o n, Obstructed f o -> blocked f (o ++ [n]) = true.
Proof.
  intros f o n (p & r & c & -> & L). apply blocked_iff. destruct r as [|x r]; [exists p, n, [], c; rewrite app_nil_r; auto|]. exists p, x, (r ++ [n]), c. rewrite <- app_assoc. auto.
Qed.

Lemma obstructed_there : forall O f cwd s o, pathOf cwd s = Some o -> Obstructed f o -> fst (ensureOut O f cwd s) = f /\ (snd (ensureOut O f cwd s) = None \/ snd (ensureOut O f cwd s) = Some EStat).
Proof.
  intros O f cwd s o P (p & r & c & E & L). unfold ensureOut, stat, statP. rewrite P. destruct (oStat O o || blocked f o) eqn:B; [auto|]. apply orb_false_iff in B as [_ B].
  destruct r as [|x r]; [rewrite app_nil_r in E; subst p; rewrite L; destruct (dirOnly s); auto|].
  assert (K : blocked f o = true) by (apply blocked_iff; exists p, x, r, c; auto). congruence.
Qed.

Lemma obstructed_files : forall X C O cwd b dir o l f, pathOf cwd (bOut b) = Some o -> Obstructed f o ->
  exists oc, generateFiles X C O cwd b dir l f = (f, [], oc) /\ (oc = Success /\ (forall n, In n l -> ~ isSource n) \/ exists e, oc = Failure e /\ In e [EStat; ERead; EOpen]).
Proof.
  intros X C O cwd b dir o l f P OB. induction l as [|n l IH]; [exists Success; split; [reflexivity|left; split; auto]|]. cbn [generateFiles].
  destruct (beq (ext n) (str ".cddl")) eqn:E; cbn [negb].
  - destruct (obstructed_there O f cwd (bOut b) o P OB) as [F1 F2]. destruct (ensureOut O f cwd (bOut b)) as [f1 e]. cbn [fst snd] in *. subst f1. destruct F2 as [->| ->].
    + rewrite P. unfold generateFile. destruct (readFile O f (dir ++ [n])) as [s|]; [|exists (Failure ERead); split; [reflexivity|right; exists ERead; cbn; auto]].
      unfold openWrite. rewrite (obstructed_blocks f o (outName n) OB), orb_true_r. exists (Failure EOpen). split; [reflexivity|right; exists EOpen; cbn; auto].
    + exists (Failure EStat). split; [reflexivity|right; exists EStat; cbn; auto].
  - destruct IH as (oc & -> & K). exists oc. split; [reflexivity|]. destruct K as [[-> K]|K]; auto. left. split; auto. intros m [<-|M]; [|now apply K]. intros Q. rewrite (proj2 (ext_iff n) Q) in E. discriminate E.
Qed.

(** C115. A file at the output directory or on the way to it: the build changes nothing, says
    nothing, does not crash, and fails if there is a source. *)
Theorem C115_build : forall X C O cwd b o f, pathOf cwd (bOut b) = Some o -> Obstructed f o ->
  exists oc, generateBuild X C O cwd (Some b) f = (f, [], oc) /\
    (oc = Success /\ (forall dir stem, pathOf cwd (bSource b) = Some dir -> look f (dir ++ [stem ++ str ".cddl"]) = None) \/
     exists e, oc = Failure e /\ In e [EStat; ENotDir; EList; ERead; EOpen]).
Proof.
  intros X C O cwd b o f P OB. assert (FAIL : forall e, In e [EStat; ENotDir; EList; ERead; EOpen] -> exists oc, (f, @nil (list Z), Failure e) = (f, [], oc) /\
    (oc = Success /\ (forall dir stem, pathOf cwd (bSource b) = Some dir -> look f (dir ++ [stem ++ str ".cddl"]) = None) \/ exists e, oc = Failure e /\ In e [EStat; ENotDir; EList; ERead; EOpen])) by (intros e I; exists (Failure e); split; [reflexivity|right; eauto]).
  cbn [generateBuild]. destruct (stat O f cwd (bSource b)); try (apply FAIL; cbn; tauto). destruct (pathOf cwd (bSource b)) as [dir|]; [|apply FAIL; cbn; tauto].
  destruct (readDir O f dir) as [l|] eqn:R; [|apply FAIL; cbn; tauto]. destruct (obstructed_files X C O cwd b dir o l f P OB) as (oc & E & K). exists oc. split; [exact E|].
  destruct K as [[-> K]|(e & -> & I)]; [left; split; auto|right; exists e; split; auto; cbn in *; tauto].
  intros d stem Ed. injection Ed as <-. destruct (look f (dir ++ [stem ++ str ".cddl"])) as [x|] eqn:L; auto. exfalso. apply (K (stem ++ str ".cddl")); [|now exists stem].
  unfold readDir in R. destruct (oList O dir || blocked f dir); [discriminate|]. destruct (look f dir) as [[|]|]; try discriminate. injection R as <-. apply names_in. intros Q. pose proof (eq_trans (eq_sym L) Q) as W. discriminate W.
Qed.

(** Several such builds, and the command. *)
Theorem C115_command : forall X C O cwd f bs, buildsOf C O f cwd = map Some bs -> (forall b, In b bs -> exists o, pathOf cwd (bOut b) = Some o /\ Obstructed f o) ->
  exists oc, generateCmd X C O (Some cwd) f = (f, [], oc) /\ (oc = Success \/ exists e, oc = Failure e).
Proof.
  intros X C O cwd f bs HB HO. assert (G : exists oc, generateBuilds X C O cwd (map Some bs) f = (f, [], oc) /\ (oc = Success \/ exists e, oc = Failure e)).
  { clear HB. induction bs as [|b bs IH]; [exists Success; auto|]. cbn [map generateBuilds]. destruct (HO b (or_introl eq_refl)) as (o & P & OB). destruct (C115_build X C O cwd b o f P OB) as (oc & -> & K).
    destruct K as [[-> _]|(e & -> & _)]; [|exists (Failure e); eauto]. destruct IH as (oc & -> & K); [intros b' I; apply HO; now right|]. exists oc. auto. }
  unfold generateCmd, buildsOf in *. destruct (loadConfigFromDir C O f cwd) as [e|[c|]]; [exists (Failure e); eauto|rewrite HB; exact G|]. rewrite <- HB in G. exact G.
Qed.

Lemma mkdir_refused : forall O rest f pre, (exists p c r, rest = p ++ c :: r /\ look f (pre ++ p ++ [c]) = None /\ oMkdir O (pre ++ p ++ [c]) = true) -> snd (mkdirFrom O f pre rest) = false.
Proof.
  intros O. induction rest as [|x rest IH]; intros f pre (p & c & r & E & L & M); [destruct p; discriminate E|]. cbn [mkdirFrom]. destruct p as [|y p]; cbn [app] in E; injection E as -> ->.
  - cbn [app] in L, M. rewrite L, M. reflexivity.
  - destruct (look f (pre ++ [y])) as [[|]|] eqn:LY; [reflexivity| |].
    + apply IH. exists p, c, r. split; auto. rewrite <- !app_assoc. auto.
    + destruct (oMkdir O (pre ++ [y])); [reflexivity|]. apply IH. exists p, c, r. split; auto. rewrite <- !app_assoc. cbn [app] in *. split; auto. rewrite look_other; auto.
      intros K. apply app_inv_head in K. injection K as K. destruct p; discriminate K.
Qed.

(** The output directory is missing and the system refuses to make it: the build fails with the
    error of MkdirAll at its first source. No file has been changed; at most some directories
    on the way have been made. *)
Theorem C115_refused : forall X C O cwd b dir o f stem, Tree f -> pathOf cwd (bSource b) = Some dir -> pathOf cwd (bOut b) = Some o ->
  oStat O dir = false -> oList O dir = false -> oStat O o = false -> look f dir = Some EDir -> look f (dir ++ [stem ++ str ".cddl"]) <> None -> look f o = None -> Free f o -> Refused O f o ->
  exists f', generateBuild X C O cwd (Some b) f = (f', [], Failure EMkdir) /\
    forall q, look f' q = look f q \/ look f q = None /\ look f' q = Some EDir /\ exists r, o = q ++ r.
Proof.
  intros X C O cwd b dir o f stem T PS PO S1 L1 S2 LD LS LO FR RF. pose proof (tree_unblocked f dir T) as B1. rewrite LD in B1. specialize (B1 ltac:(discriminate)). pose proof (free_unblocked f o FR) as B2.
  cbn [generateBuild]. unfold stat at 1, statP. rewrite PS, S1, B1, LD. cbn [orb]. unfold readDir. rewrite L1, B1, LD. cbn [orb].
  assert (EN : exists f', ensureOut O f cwd (bOut b) = (f', Some EMkdir) /\ forall q, look f' q = look f q \/ look f q = None /\ look f' q = Some EDir /\ exists r, o = q ++ r).
  { unfold ensureOut, stat, statP, mkdirAll. rewrite PO, S2, B2, LO. cbn [orb]. pose proof (mkdir_refused O o f []) as MR. cbn [app] in MR. specialize (MR RF). destruct (mkdirFrom O f [] o) as [f' okay] eqn:M. cbn [snd] in MR. subst okay.
    exists f'. split; [reflexivity|]. exact (mkdirFrom_effect _ _ _ _ _ _ M). }
  destruct EN as (f' & EN & K). exists f'. split; auto. assert (I : In (stem ++ str ".cddl") (names f dir)) by now apply names_in.
  induction (names f dir) as [|n l IH]; [destruct I|]. cbn [generateFiles]. destruct (beq (ext n) (str ".cddl")) eqn:E; cbn [negb]; [rewrite EN; reflexivity|].
  apply IH. destruct I as [->|I]; auto. assert (X1 : beq (ext (stem ++ str ".cddl")) (str ".cddl") = true) by (apply ext_iff; eauto). congruence.
Qed.

(** ** Examples *)

(** [dist] is a file: the build fails and the file stays. *)
Definition fileThere : fs := [(home, EDir); (home ++ [str "a.cddl"], EFile (str "a = int")); (home ++ [str "dist"], EFile (str "mine"))].

Example C115_ex : pathOf home (str "dist/") = Some (home ++ [str "dist"]) /\ Obstructed fileThere (home ++ [str "dist"]) /\ generateCmd X0 sampleCli noRefusals (Some home) fileThere = (fileThere, [], Failure EStat).
Proof. split; [reflexivity|]. split; [exists (home ++ [str "dist"]), [], (str "mine"); split; reflexivity|vm_compute; reflexivity]. Qed.

(** The same without the slash: the error is another one. *)
Example C115_ex_open : generateBuild X0 sampleCli noRefusals home (Some (mkBuild [] (str ".") (str "dist"))) fileThere = (fileThere, [], Failure EOpen).
Proof. vm_compute. reflexivity. Qed.

(** [x] can be made and [x/y] cannot. *)
Definition noDir : OsExt := mkOs (oStat noRefusals) (oRead noRefusals) (oList noRefusals) (oOpen noRefusals) (fun p => Nat.ltb 2 (length p)) (oWrite noRefusals).
Example C115_ex_refused : let f := [(home, EDir); (home ++ [str "a.cddl"], EFile (str "a = int"))] in
  Refused noDir f (home ++ [str "x"; str "y"]) /\ Tree f /\ generateBuild X0 sampleCli noDir home (Some (mkBuild [] (str ".") (str "x/y"))) f = ((home ++ [str "x"], EDir) :: f, [], Failure EMkdir).
Proof.
  cbv zeta. split; [exists (home ++ [str "x"]), (str "y"), []; repeat split; reflexivity|]. split; [apply tree_by; vm_compute; reflexivity|]. vm_compute. reflexivity.
Qed.
