(** Property C98: what it takes for generate to succeed, and what it leaves. *)
From Coq Require Import String.
From Verif Require Import Base Utf8 Token Ext Lexer LexSpec Ast Env Diag Parser Repl Codegen Cli EnvProofs CliProofs Props_Codegen Props_Lexer Props_Report Props_Cli
  Doc GoSpec Cddl GoCbor GoRead Props_Parser Props_Doc DocText Props_GoFile Props_Meaning Props_Lossy Props_Read CliProofs.
Open Scope string_scope.
Open Scope list_scope.
Open Scope Z_scope.

(** ** Specification *)

(** The system refuses nothing except what the state of the files forbids. *)
Definition calm (O : OsExt) : Prop :=
  forall p, oStat O p = false /\ oRead O p = false /\ oList O p = false /\ oOpen O p = false /\ oMkdir O p = false /\ oWrite O p = false.

(** What is in a directory is in a directory. *)
Definition Tree (f : fs) : Prop := forall p c, look f (p ++ [c]) <> None -> look f p = Some EDir.

(** No file is on the way to the directory [o], so it exists or can be made. *)
Definition Free (f : fs) (o : path) : Prop := forall p r c, o = p ++ r -> look f p <> Some (EFile c).

(** One build: its source directory exists, and every source in it is a file that compiles,
    whose output can be put into the output directory. *)
Definition Buildable (X : Ext) (C : CliExt) (cwd : path) (f : fs) (b : build) : Prop :=
  exists dir, pathOf cwd (bSource b) = Some dir /\ look f dir = Some EDir /\
  forall stem, look f (dir ++ [stem ++ str ".cddl"]) <> None -> exists o s text, pathOf cwd (bOut b) = Some o /\
    look f (dir ++ [stem ++ str ".cddl"]) = Some (EFile s) /\ Compiled X C (bPackage b) s text /\
    Free f o /\ look f (o ++ [stem ++ str ".go"]) <> Some EDir.

(** [Job cwd f b src o out]: [src] is a source of the build, to be compiled to [out] in [o]. *)
Definition Job (cwd : path) (f : fs) (b : build) (src o out : path) : Prop :=
  exists dir stem, pathOf cwd (bSource b) = Some dir /\ pathOf cwd (bOut b) = Some o /\ look f src <> None /\
    src = dir ++ [stem ++ str ".cddl"] /\ out = o ++ [stem ++ str ".go"].

(** The builds do not get into each other's way: no output file is on the way to an output
    directory, and no directory on the way to one looks like a source. *)
Definition Apart (cwd : path) (f : fs) (bs : list build) : Prop :=
  forall b b' src o out, In b bs -> In b' bs -> Job cwd f b src o out ->
    (forall src' o' out' r, Job cwd f b' src' o' out' -> o <> out' ++ r) /\
    (forall dir stem r, pathOf cwd (bSource b') = Some dir -> o <> (dir ++ [stem ++ str ".cddl"]) ++ r).

(** What the builds leave: every output holds the text compiled from a source of it, the
    directories on the way to it exist, and the rest is as before. *)
Definition Left (X : Ext) (C : CliExt) (cwd : path) (bs : list build) (f f' : fs) : Prop := forall q,
  (exists b src o s text, In b bs /\ Job cwd f b src o q /\ look f src = Some (EFile s) /\ Compiled X C (bPackage b) s text /\ look f' q = Some (EFile text)) \/
  ((forall b src o, In b bs -> ~ Job cwd f b src o q) /\
   ((exists b src o out r, In b bs /\ Job cwd f b src o out /\ o = q ++ r) /\ look f' q = Some EDir \/
    (forall b src o out r, In b bs -> Job cwd f b src o out -> o <> q ++ r) /\ look f' q = look f q)).

(** ** Proofs *)

Lemma tree_prefix : forall f, Tree f -> forall r a c, look f (a ++ c :: r) <> None -> look f a = Some EDir.
Proof.
  intros f T r. induction r as [|x r IH] using rev_ind; intros a c H.
  - now apply T in H.
  - replace (a ++ c :: r ++ [x]) with ((a ++ c :: r) ++ [x]) in H by now rewrite <- app_assoc. apply T in H. apply (IH a c). congruence.
Qed.

Lemma blocked_iff : forall f p, blocked f p = true <-> exists a c r t, p = a ++ c :: r /\ look f a = Some (EFile t).
Proof.
  intros f p. unfold blocked.
  assert (K : forall rest pre, blockedAt f pre rest = true <-> exists a c r t, rest = a ++ c :: r /\ look f (pre ++ a) = Some (EFile t)).
  { induction rest as [|c rest IH]; intros pre; cbn [blockedAt].
    - split; [discriminate|]. intros ([|] & ? & ? & ? & E & _); discriminate.
    - destruct (look f pre) as [[t|]|] eqn:L.
      + split; auto. intros _. exists [], c, rest, t. now rewrite app_nil_r.
      + rewrite IH. split; intros (a & d & r & t & E & H).
        * exists (c :: a), d, r, t. subst rest. rewrite <- app_assoc in H. auto.
        * destruct a as [|x a]; [rewrite app_nil_r in H; congruence|]. cbn [app] in E. inversion E; subst. exists a, d, r, t. rewrite <- app_assoc. auto.
      + rewrite IH. split; intros (a & d & r & t & E & H).
        * exists (c :: a), d, r, t. subst rest. rewrite <- app_assoc in H. auto.
        * destruct a as [|x a]; [rewrite app_nil_r in H; congruence|]. cbn [app] in E. inversion E; subst. exists a, d, r, t. rewrite <- app_assoc. auto. }
  apply (K p []).
Qed.

Lemma free_unblocked : forall f o, Free f o -> blocked f o = false.
Proof.
  intros f o F. destruct (blocked f o) eqn:B; auto. apply blocked_iff in B as (a & c & r & t & E & L). exfalso. eapply F; eauto.
Qed.

Lemma tree_unblocked : forall f p, Tree f -> look f p <> None -> blocked f p = false.
Proof.
  intros f p T H. destruct (blocked f p) eqn:B; auto. apply blocked_iff in B as (a & c & r & t & -> & L).
  apply (tree_prefix f T) in H. congruence.
Qed.

Lemma tree_child : forall f p c, Tree f -> look f p = Some EDir -> blocked f (p ++ [c]) = false.
Proof.
  intros f p c T H. destruct (blocked f (p ++ [c])) eqn:B; auto. apply blocked_iff in B as (a & d & r & t & E & L).
  destruct (rev r) as [|x r'] eqn:R.
  - apply (f_equal (@rev _)) in R. rewrite rev_involutive in R. cbn in R. subst r. apply app_inj_tail in E as [-> _]. congruence.
  - apply (f_equal (@rev _)) in R. rewrite rev_involutive in R. cbn in R. subst r.
    replace (a ++ d :: rev r' ++ [x]) with ((a ++ d :: rev r') ++ [x]) in E by now rewrite <- app_assoc. apply app_inj_tail in E as [-> _].
    assert (N : look f (a ++ d :: rev r') <> None) by congruence. apply (tree_prefix f T) in N. congruence.
Qed.

Lemma tree_set_dir : forall f p c, Tree f -> look f p = Some EDir -> look f (p ++ [c]) = None -> Tree (set f (p ++ [c]) EDir).
Proof.
  intros f p c T H N q d K. destruct (peq (q ++ [d]) (p ++ [c])) eqn:E.
  - apply peq_iff, app_inj_tail in E as [-> ->]. rewrite look_other; auto. intros E. apply (f_equal (@length _)) in E. rewrite app_length in E. cbn in E. lia.
  - rewrite look_other in K by (intros X; rewrite X, peq_refl in E; discriminate). apply T in K.
    rewrite look_other; auto. intros ->. congruence.
Qed.

Lemma tree_set_file : forall f p c e, Tree f -> look f p = Some EDir -> look f (p ++ [c]) <> Some EDir -> Tree (set f (p ++ [c]) (EFile e)).
Proof.
  intros f p c e T H N q d K. destruct (peq (q ++ [d]) (p ++ [c])) eqn:E.
  - apply peq_iff, app_inj_tail in E as [-> ->]. rewrite look_other; auto. intros E. apply (f_equal (@length _)) in E. rewrite app_length in E. cbn in E. lia.
  - rewrite look_other in K by (intros X; rewrite X, peq_refl in E; discriminate). apply T in K.
    rewrite look_other; auto. intros ->. congruence.
Qed.

Lemma tree_same : forall f f', Tree f -> (forall q, look f' q = look f q) -> Tree f'.
Proof. intros f f' T H p c K. rewrite H in *. eauto. Qed.

(** Making the directories. *)
Definition Made (o : path) (f f' : fs) : Prop := forall q,
  look f' q = (if look f q then look f q else if peq (firstn (length q) o) q then Some EDir else None).

Lemma prefix_iff : forall o q : path, peq (firstn (length q) o) q = true <-> exists r, o = q ++ r.
Proof.
  intros o q. rewrite peq_iff. split.
  - intros E. exists (skipn (length q) o). rewrite <- E at 1. symmetry. apply firstn_skipn.
  - intros [r ->]. rewrite firstn_app, Nat.sub_diag, firstn_all. cbn. apply app_nil_r.
Qed.

Lemma made_spec : forall o f f', Made o f f' <-> (forall q, (look f q <> None -> look f' q = look f q) /\
  (look f q = None -> (exists r, o = q ++ r) -> look f' q = Some EDir) /\ (look f q = None -> (forall r, o <> q ++ r) -> look f' q = None)).
Proof.
  intros o f f'. split; intros H q.
  - rewrite H. destruct (look f q); split; [auto|split; congruence|congruence|]. split; intros _ K.
    + apply prefix_iff in K. now rewrite K.
    + destruct (peq _ q) eqn:E; auto. apply prefix_iff in E as [r E]. exfalso. now apply (K r).
  - destruct (H q) as (H1 & H2 & H3). destruct (look f q) as [e|]; [apply H1; discriminate|].
    destruct (peq _ q) eqn:E; [apply H2; auto; now apply prefix_iff|]. apply H3; auto. intros r K.
    assert (X : exists r, o = q ++ r) by eauto. apply prefix_iff in X. congruence.
Qed.

Lemma mkdirFrom_ok : forall O, calm O -> forall rest pre f, Tree f -> look f pre = Some EDir -> Free f (pre ++ rest) ->
  exists f', mkdirFrom O f pre rest = (f', true) /\ Tree f' /\ Made (pre ++ rest) f f'.
Proof.
  intros O CO. induction rest as [|c rest IH]; intros pre f T L F; cbn [mkdirFrom].
  - exists f. split; auto. split; auto. apply made_spec. intros q. split; auto. rewrite app_nil_r. split; auto.
    intros N [r ->]. destruct r as [|x r]; [rewrite app_nil_r in L; congruence|]. assert (K : look f (q ++ x :: r) <> None) by congruence.
    apply (tree_prefix f T) in K. congruence.
  - assert (E : pre ++ c :: rest = (pre ++ [c]) ++ rest) by now rewrite <- app_assoc.
    destruct (look f (pre ++ [c])) as [[t|]|] eqn:LC.
    + exfalso. apply (F (pre ++ [c]) rest t E LC).
    + rewrite E in F |- *. apply IH; auto.
    + destruct (CO (pre ++ [c])) as (_ & _ & _ & _ & CM & _). rewrite CM.
      assert (NR : pre ++ [c] <> []) by (destruct pre; discriminate).
      destruct (IH (pre ++ [c]) (set f (pre ++ [c]) EDir)) as (f' & R & T' & M).
      * now apply tree_set_dir.
      * now apply look_same.
      * intros p r t Ep. rewrite <- E in Ep. destruct (peq p (pre ++ [c])) eqn:Q.
        -- apply peq_iff in Q. subst p. rewrite look_same by auto. discriminate.
        -- rewrite look_other by (intros X; rewrite X, peq_refl in Q; discriminate). eauto.
      * exists f'. split; auto. split; auto. rewrite E. rewrite made_spec in *. intros q. destruct (M q) as (M1 & M2 & M3).
        destruct (peq q (pre ++ [c])) eqn:Q.
        -- apply peq_iff in Q. subst q. rewrite look_same in * by auto. split; [congruence|]. split.
           ++ intros _ _. apply M1. discriminate.
           ++ intros _ K. exfalso. now apply (K rest).
        -- rewrite look_other in * by (intros X; rewrite X, peq_refl in Q; discriminate). auto.
Qed.

Lemma ensureOut_ok : forall O f cwd s o, calm O -> Tree f -> pathOf cwd s = Some o -> Free f o ->
  exists f', ensureOut O f cwd s = (f', None) /\ Tree f' /\ Made o f f' /\ look f' o = Some EDir.
Proof.
  intros O f cwd s o CO T P F. unfold ensureOut, stat. rewrite P. unfold statP. destruct (CO o) as (CS & _). rewrite CS, (free_unblocked f o F). cbn [orb].
  assert (FO : forall t, look f o <> Some (EFile t)) by (intros t; apply (F o []); now rewrite app_nil_r).
  destruct (look f o) as [[t|]|] eqn:L.
  - exfalso. now apply (FO t).
  - exists f. split; auto. split; auto. split; auto. apply made_spec. intros q. split; auto. split; auto.
    intros N [r ->]. destruct r as [|x r]; [rewrite app_nil_r in L; congruence|]. assert (K : look f (q ++ x :: r) <> None) by congruence.
    apply (tree_prefix f T) in K. congruence.
  - unfold mkdirAll. rewrite P. destruct (mkdirFrom_ok O CO o [] f T (look_root f) F) as (f' & R & T' & M). rewrite R. exists f'. split; auto. split; auto. split; auto.
    cbn [app] in M. apply (proj1 (made_spec o f f') M o); auto. exists []. now rewrite app_nil_r.
Qed.

Lemma generateFile_ok : forall X C O pkg src o n f s text, calm O -> Tree f -> look f src = Some (EFile s) -> Compiled X C pkg s text ->
  look f o = Some EDir -> look f (o ++ [n]) <> Some EDir ->
  exists f', generateFile X C O pkg src (o ++ [n]) f = (f', [], Success) /\ Tree f' /\ look f' (o ++ [n]) = Some (EFile text) /\
    forall q, q <> o ++ [n] -> look f' q = look f q.
Proof.
  intros X C O pkg src o n f s text CO T LS HC LO LN.
  assert (NR : o ++ [n] <> []) by (destruct o; discriminate).
  assert (R : readFile O f src = Some s).
  { unfold readFile. destruct (CO src) as (_ & K & _). rewrite K, (tree_unblocked f src T), LS by congruence. reflexivity. }
  destruct (CO (o ++ [n])) as (_ & _ & _ & K & _ & W).
  assert (E : openWrite O true f (o ++ [n]) = Some (set f (o ++ [n]) (EFile []))).
  { unfold openWrite. rewrite K, (tree_child f o n T LO). cbn [orb]. destruct (look f (o ++ [n])) as [[t|]|]; auto; [congruence|]. now rewrite removelast_last, LO. }
  destruct HC as (root & p & g & P & V & ->).
  assert (G : generateFile X C O pkg src (o ++ [n]) f =
    (append (append (set f (o ++ [n]) (EFile [])) (o ++ [n]) (header (cArgs C))) (o ++ [n]) (cFormat C (gPkg (genString (cGen C) g)) (gDecls (genString (cGen C) g))), [], Success)).
  { unfold generateFile. rewrite R, E, P. cbn [rootNode]. rewrite V, W. reflexivity. }
  destruct (generateFile X C O pkg src (o ++ [n]) f) as [[f' o'] oc] eqn:GE. exists f'.
  assert (SO : o' = [] /\ oc = Success) by (inversion G; auto). destruct SO as [-> ->].
  assert (LQ : forall q, q <> o ++ [n] -> look f' q = look f q) by (intros q Q; eapply C42_only_output; eauto).
  assert (LF : look f' (o ++ [n]) = Some (EFile (fileText C g))).
  { destruct (C42_output _ _ _ _ _ _ _ _ _ _ GE) as [(_ & s' & t' & R' & (root' & p' & g' & P' & V' & ->) & L)|[(N & _)|(N & _)]]; try congruence. }
  split; auto. split; [|split; auto].
  assert (TS := tree_set_file f o n (fileText C g) T LO LN). eapply tree_same; [exact TS|]. intros q. destruct (peq q (o ++ [n])) eqn:Q.
  - apply peq_iff in Q. subst q. now rewrite look_same.
  - rewrite look_other, LQ; auto; intros ->; rewrite peq_refl in Q; discriminate.
Qed.

(** The names of [l] that are sources, in a build from [dir]. *)
Definition LeftBy (X : Ext) (C : CliExt) (cwd : path) (b : build) (dir : path) (l : list bytes) (f f' : fs) : Prop := forall q,
  (exists stem o s text, In (stem ++ str ".cddl") l /\ pathOf cwd (bOut b) = Some o /\ q = o ++ [stem ++ str ".go"] /\
     look f (dir ++ [stem ++ str ".cddl"]) = Some (EFile s) /\ Compiled X C (bPackage b) s text /\ look f' q = Some (EFile text)) \/
  ((forall stem o, In (stem ++ str ".cddl") l -> pathOf cwd (bOut b) = Some o -> q <> o ++ [stem ++ str ".go"]) /\
   ((exists stem o r, In (stem ++ str ".cddl") l /\ pathOf cwd (bOut b) = Some o /\ o = q ++ r) /\ look f' q = Some EDir \/
    (forall stem o r, In (stem ++ str ".cddl") l -> pathOf cwd (bOut b) = Some o -> o <> q ++ r) /\ look f' q = look f q)).

Lemma longer : forall (A : Type) (o : list A) n r, o <> (o ++ [n]) ++ r.
Proof. intros A o n r E. apply (f_equal (@length _)) in E. rewrite !app_length in E. cbn in E. lia. Qed.

Lemma prefix_dec : forall o q : path, (exists r, o = q ++ r) \/ (forall r, o <> q ++ r).
Proof.
  intros o q. destruct (peq (firstn (length q) o) q) eqn:E; [left; now apply prefix_iff|right]. intros r K.
  assert (H : exists r, o = q ++ r) by eauto. apply prefix_iff in H. congruence.
Qed.

Lemma generateFiles_ok : forall X C O cwd b dir, calm O -> forall l f, Tree f ->
  (forall stem, In (stem ++ str ".cddl") l -> exists o s text, pathOf cwd (bOut b) = Some o /\
    look f (dir ++ [stem ++ str ".cddl"]) = Some (EFile s) /\ Compiled X C (bPackage b) s text /\ Free f o /\ look f (o ++ [stem ++ str ".go"]) <> Some EDir) ->
  exists f', generateFiles X C O cwd b dir l f = (f', [], Success) /\ Tree f' /\ LeftBy X C cwd b dir l f f'.
Proof.
  intros X C O cwd b dir CO. induction l as [|n l IH]; intros f T H; cbn [generateFiles].
  { exists f. split; auto. split; auto. intros q. right. split; [intros ? ? []|]. right. split; [intros ? ? ? []|reflexivity]. }
  destruct (beq (ext n) (str ".cddl")) eqn:E; cbn [negb].
  2:{ assert (K : forall stem, In (stem ++ str ".cddl") (n :: l) <-> In (stem ++ str ".cddl") l).
      { intros stem. split; [|now right]. intros [->|K]; auto. exfalso. assert (B : beq (ext (stem ++ str ".cddl")) (str ".cddl") = true) by (apply ext_iff; eauto). congruence. }
      destruct (IH f T) as (f' & G & T' & L); [intros stem HS; apply H; now apply K|]. exists f'. split; auto. split; auto.
      intros q. destruct (L q) as [(stem & o & s & text & HI & R)|(HN & [[(stem & o & r & HI & R) D]|[D S]])].
      - left. exists stem, o, s, text. split; [now apply K|exact R].
      - right. split; [intros stem' o' HI'; apply HN; now apply K|]. left. split; auto. exists stem, o, r. split; [now apply K|exact R].
      - right. split; [intros stem' o' HI'; apply HN; now apply K|]. right. split; auto. intros stem o r HI. apply (D stem). now apply K. }
  apply ext_iff in E as [stem ->]. rewrite outName_stem.
  destruct (H stem (or_introl eq_refl)) as (o & s & text & P & LS & HC & F & LN).
  destruct (ensureOut_ok O f cwd (bOut b) o CO T P F) as (f1 & EO & T1 & M & LO). rewrite EO, P.
  rewrite made_spec in M.
  assert (K1 : forall q, look f q <> None -> look f1 q = look f q) by (intros q; apply M).
  assert (KO : forall x, look f1 (o ++ [x]) = look f (o ++ [x])).
  { intros x. destruct (look f (o ++ [x])) eqn:Q; [rewrite <- Q; apply K1; congruence|]. apply (M (o ++ [x])); auto. intros r. apply longer. }
  destruct (generateFile_ok X C O (bPackage b) (dir ++ [stem ++ str ".cddl"]) o (stem ++ str ".go") f1 s text CO T1) as (f2 & G & T2 & LT & LQ); auto.
  { rewrite K1; congruence. }
  { now rewrite KO. }
  destruct (generateFile X C O (bPackage b) _ _ f1) as [[f2' o2'] oc2'] eqn:G2. injection G as -> -> ->.
  assert (KS : forall x, look f (dir ++ [x ++ str ".cddl"]) <> None -> look f2 (dir ++ [x ++ str ".cddl"]) = look f (dir ++ [x ++ str ".cddl"])).
  { intros x N. rewrite LQ; auto. intros E. apply app_inj_tail in E as [_ E]. symmetry in E. now apply suffix_differs in E. }
  destruct (IH f2 T2) as (f' & R & T' & L).
  { intros x HI. destruct (H x (or_intror HI)) as (o' & s' & text' & P' & LS' & HC' & F' & LN'). assert (o' = o) by congruence. subst o'.
    exists o, s', text'. split; auto. split; [rewrite KS; congruence|]. split; auto. split.
    - intros p r c E. rewrite LQ by (intros ->; now apply (longer _ o (stem ++ str ".go") r)).
      destruct (look f p) as [e|] eqn:LP; [rewrite K1 by congruence; rewrite LP; intros K; injection K as ->; now apply (F p r c)|].
      destruct (M p) as (_ & M2 & _). rewrite M2; eauto. discriminate.
    - destruct (peq (o ++ [x ++ str ".go"]) (o ++ [stem ++ str ".go"])) eqn:Q; [apply peq_iff in Q; intros K; pose proof (eq_trans (eq_sym LT) (eq_trans (f_equal (look f2) (eq_sym Q)) K)) as W; discriminate W|].
      rewrite LQ, KO; auto. intros E. rewrite E, peq_refl in Q. discriminate. }
  rewrite R. exists f'. split; auto. split; auto. intros q.
  assert (LEFT : look f' q = Some (EFile text) -> q = o ++ [stem ++ str ".go"] ->
    exists stem0 o0 s0 text0, In (stem0 ++ str ".cddl") ((stem ++ str ".cddl") :: l) /\ pathOf cwd (bOut b) = Some o0 /\ q = o0 ++ [stem0 ++ str ".go"] /\
      look f (dir ++ [stem0 ++ str ".cddl"]) = Some (EFile s0) /\ Compiled X C (bPackage b) s0 text0 /\ look f' q = Some (EFile text0)).
  { intros LF EQ. exists stem, o, s, text. split; [now left|]. auto. }
  destruct (L q) as [(x & o' & s' & text' & HI & P' & Q & LS' & HC' & LF)|(HN & HD)].
  - left. exists x, o', s', text'. split; [now right|]. split; auto. split; auto. split; auto.
    destruct (H x (or_intror HI)) as (_ & s2 & _ & _ & LS2 & _). rewrite KS in LS' by congruence. exact LS'.
  - destruct (peq q (o ++ [stem ++ str ".go"])) eqn:Q.
    + apply peq_iff in Q. left. apply LEFT; auto. destruct HD as [[(x & o' & r & HI & P' & E) _]|[_ S]].
      * exfalso. assert (EE : o = q ++ r) by congruence. rewrite Q in EE. now apply longer in EE.
      * rewrite S, Q. exact LT.
    + assert (NQ : q <> o ++ [stem ++ str ".go"]) by (intros ->; rewrite peq_refl in Q; discriminate). right. split.
      * intros x o' HI P'. assert (o' = o) by congruence. subst o'. destruct HI as [K|HI]; [|eauto]. apply app_inv_tail in K. now subst x.
      * destruct (prefix_dec o q) as [[r E]|NP].
        -- left. split; [exists stem, o, r; split; [now left|auto]|]. destruct HD as [[_ D]|[_ S]]; auto. rewrite S, LQ by auto.
           destruct (look f q) as [e|] eqn:LP.
           ++ rewrite K1, LP by congruence. destruct e as [t|]; auto. exfalso. now apply (F q r t).
           ++ destruct (M q) as (_ & M2 & _). apply M2; eauto.
        -- right. split.
           ++ intros x o' r HI P'. assert (o' = o) by congruence. subst o'. apply NP.
           ++ destruct HD as [[(x & o' & r & HI & P' & E) _]|[_ S]].
              ** exfalso. apply (NP r). congruence.
              ** rewrite S, LQ by auto. destruct (look f q) eqn:LP; [rewrite <- LP; apply K1; congruence|]. destruct (M q) as (_ & _ & M3). auto.
Qed.

Lemma build_ok : forall X C O cwd b f, calm O -> Tree f -> Buildable X C cwd f b ->
  exists f', generateBuild X C O cwd (Some b) f = (f', [], Success) /\ Tree f' /\ Left X C cwd [b] f f'.
Proof.
  intros X C O cwd b f CO T (dir & P & LD & H). destruct (CO dir) as (CS & _ & CL & _).
  assert (B : blocked f dir = false) by (apply tree_unblocked; auto; congruence).
  cbn [generateBuild]. unfold stat. rewrite P. unfold statP, readDir. rewrite CS, CL, B, LD. cbn [orb].
  destruct (generateFiles_ok X C O cwd b dir CO (names f dir) f T) as (f' & G & T' & L).
  { intros stem HI. apply H. now apply names_in. }
  exists f'. split; auto. split; auto. intros q. destruct (L q) as [(stem & o & s & text & HI & PO & Q & LS & HC & LF)|(HN & HD)].
  - left. exists b, (dir ++ [stem ++ str ".cddl"]), o, s, text. split; [now left|]. split; auto. exists dir, stem. repeat split; auto. now apply names_in.
  - right. split.
    + intros b' src o [<-|[]] (dir' & stem & P' & PO & LS & -> & Q). assert (dir' = dir) by congruence. subst dir'. apply (HN stem o); auto. now apply names_in.
    + destruct HD as [[(stem & o & r & HI & PO & E) D]|[D S]]; [left|right]; split; auto.
      * exists b, (dir ++ [stem ++ str ".cddl"]), o, (o ++ [stem ++ str ".go"]), r. split; [now left|]. split; auto. exists dir, stem. repeat split; auto. now apply names_in.
      * intros b' src o out r [<-|[]] (dir' & stem & P' & PO & LS & -> & Q). assert (dir' = dir) by congruence. subst dir'. apply (D stem o r); auto. now apply names_in.
Qed.

Lemma opened : forall X C O cwd b dir l f f' outs, pathOf cwd (bSource b) = Some dir -> generateFiles X C O cwd b dir l f = (f', outs, Success) ->
  forall stem o, In (stem ++ str ".cddl") l -> pathOf cwd (bOut b) = Some o ->
  exists f1, (forall q, Effect cwd [Some b] f f1 q) /\ openWrite O true f1 (o ++ [stem ++ str ".go"]) <> None.
Proof.
  intros X C O cwd b dir l. induction l as [|n l IH]; intros f f' outs P H stem o HI PO; [contradiction|]. cbn [generateFiles] in H.
  destruct (beq (ext n) (str ".cddl")) eqn:E; cbn [negb] in H.
  2:{ destruct HI as [->|HI]; [|eauto]. assert (beq (ext (stem ++ str ".cddl")) (str ".cddl") = true) by (apply ext_iff; eauto). congruence. }
  apply ext_iff in E as [stem' ->]. rewrite outName_stem in H.
  destruct (ensureOut O f cwd (bOut b)) as [f1 [e|]] eqn:EO; [discriminate|]. rewrite PO in H.
  destruct (generateFile _ _ _ _ _ _ f1) as [[f2 o2] oc2] eqn:G. destruct oc2; try discriminate.
  destruct (generateFiles X C O cwd b dir l f2) as [[f3 o3] oc3] eqn:R. inversion H; subst.
  assert (EF : forall q, Effect cwd [Some b] f f1 q) by (eapply ensureOut_effect; [left; reflexivity|exact EO]).
  destruct HI as [K|HI].
  - apply app_inv_tail in K. subst stem'. exists f1. split; auto. intros W. unfold generateFile in G. destruct (readFile _ _ _); [|discriminate].
    destruct (openWrite O true f1 _) as [f4|] eqn:W2 in G; [|discriminate]. pose proof (eq_trans (eq_sym W2) W) as W3. discriminate W3.
  - destruct (IH _ _ _ P R stem o HI PO) as (f4 & E4 & W). exists f4. split; auto. eapply effect_trans; [|exact E4].
    eapply effect_trans; [exact EF|]. eapply generateFile_effect; eauto. now left.
Qed.

(** A build succeeds exactly if it is buildable; it then reports nothing. *)
Theorem C98_build : forall X C O cwd b f, calm O -> Tree f ->
  ((exists f' outs, generateBuild X C O cwd (Some b) f = (f', outs, Success)) <-> Buildable X C cwd f b) /\
  (Buildable X C cwd f b -> exists f', generateBuild X C O cwd (Some b) f = (f', [], Success) /\ Left X C cwd [b] f f').
Proof.
  intros X C O cwd b f CO T. split; [split|].
  - intros (f' & outs & H). destruct (C42_build_outputs _ _ _ _ _ _ _ _ H) as (dir & P & LD & K). exists dir. split; auto. split; auto.
    intros stem N. destruct (K stem N) as (o & s & text & PO & LS & HC & LF). exists o, s, text. split; auto. split; auto. split; auto.
    assert (EF : forall q, Effect cwd [Some b] f f' q) by (eapply generateBuild_effect; [left; reflexivity|exact H]).
    assert (LX : look f (o ++ [stem ++ str ".go"]) <> Some EDir).
    { intros LX. destruct (EF (o ++ [stem ++ str ".go"])) as [Q|? ? ? _ _ _ Q _|? ? ? ? ? _ _ _ _ _ Q _].
      - pose proof (eq_trans (eq_sym LF) (eq_trans Q LX)) as W. discriminate W.
      - pose proof (eq_trans (eq_sym Q) LX) as W. discriminate W.
      - exact (Q LX). }
    split; auto.
    (* a file on the way to [o] would still be there *)
    intros p r t E LP. cbn [generateBuild] in H. destruct (stat O f cwd (bSource b)); try discriminate. rewrite P in H.
    destruct (readDir O f dir) as [l|] eqn:R; [|discriminate]. unfold readDir in R. destruct (_ || _); [discriminate|]. rewrite LD in R. inversion R; subst l.
    destruct (opened _ _ _ _ _ _ _ _ _ _ P H stem o (proj2 (names_in _ _ _) N) PO) as (f1 & E1 & W).
    assert (LP' : exists t', look f1 p = Some (EFile t')).
    { destruct (E1 p) as [Q|? ? ? _ _ _ Q _|? ? ? ? c _ _ _ _ _ _ Q]; [exists t; exact (eq_trans Q LP)| |eauto]. pose proof (eq_trans (eq_sym Q) LP) as W2. discriminate W2. }
    destruct LP' as [t' LP'].
    apply W. unfold openWrite. replace (blocked f1 (o ++ [stem ++ str ".go"])) with true; [now rewrite orb_true_r|].
    symmetry. apply blocked_iff. subst o. destruct r as [|c r].
    + exists p, (stem ++ str ".go"), [], t'. now rewrite app_nil_r.
    + exists p, c, (r ++ [stem ++ str ".go"]), t'. now rewrite <- app_assoc.
  - intros HB. destruct (build_ok X C O cwd b f CO T HB) as (f' & G & _). eauto.
  - intros HB. destruct (build_ok X C O cwd b f CO T HB) as (f' & G & _ & L). eauto.
Qed.

(** ** Several builds *)

Section After.
Variables (X : Ext) (C : CliExt) (cwd : path) (b : build) (bs : list build) (f f1 : fs).
Hypothesis HB : Buildable X C cwd f b.
Hypothesis HA : Apart cwd f (b :: bs).
Hypothesis HL : Left X C cwd [b] f f1.

Lemma after_source : forall b' dir stem, In b' bs -> pathOf cwd (bSource b') = Some dir ->
  look f1 (dir ++ [stem ++ str ".cddl"]) = look f (dir ++ [stem ++ str ".cddl"]).
Proof.
  intros b' dir stem HI P. destruct (HL (dir ++ [stem ++ str ".cddl"])) as [(b1 & src & o & s & text & [<-|[]] & (d & x & _ & _ & _ & _ & E) & _)|(_ & [[(b1 & src & o & out & r & [<-|[]] & J & E) _]|[_ S]])].
  - exfalso. apply app_inj_tail in E as [_ E]. symmetry in E. now apply suffix_differs in E.
  - exfalso. destruct (HA b b' src o out) as [_ K]; [now left|now right|exact J|]. exact (K dir stem r P E).
  - exact S.
Qed.

Lemma after_job : forall b' src o out, In b' bs -> (Job cwd f b' src o out <-> Job cwd f1 b' src o out).
Proof.
  intros b' src o out HI. split; intros (dir & stem & P & PO & N & -> & E); exists dir, stem; repeat split; auto.
  - intros K. apply N. exact (eq_trans (eq_sym (after_source b' dir stem HI P)) K).
  - intros K. apply N. exact (eq_trans (after_source b' dir stem HI P) K).
Qed.

Lemma after_buildable : forall b', In b' bs -> Buildable X C cwd f b' -> Buildable X C cwd f1 b'.
Proof.
  intros b' HI (dir & P & LD & H). exists dir. split; auto. split.
  { destruct (HL dir) as [(b1 & src & o & s & text & [<-|[]] & (d & x & P1 & P2 & N & E & Q) & _)|(_ & [[_ D]|[_ S]])]; auto; [|congruence].
    exfalso. destruct HB as (d' & P' & _ & K). assert (d' = d) by congruence. subst d'. rewrite E in N. destruct (K x N) as (o' & s' & t' & P3 & _ & _ & _ & Z).
    assert (o' = o) by congruence. subst o'. apply Z. rewrite <- LD. f_equal. symmetry. exact Q. }
  intros stem N1. pose proof (after_source b' dir stem HI P) as ES. assert (N : look f (dir ++ [stem ++ str ".cddl"]) <> None) by (intros K; apply N1; exact (eq_trans ES K)).
  destruct (H stem N) as (o & s & text & PO & LS & HC & F & LN). exists o, s, text. split; auto. split; [exact (eq_trans ES LS)|]. split; auto.
  assert (J : Job cwd f b' (dir ++ [stem ++ str ".cddl"]) o (o ++ [stem ++ str ".go"])) by (exists dir, stem; auto).
  split.
  - intros p r c E K. destruct (HL p) as [(b1 & src & o1 & s1 & t1 & [<-|[]] & J1 & _)|(_ & [[_ D]|[_ S]])].
    + destruct (HA b' b _ _ _ (or_intror HI) (or_introl eq_refl) J) as [W _]. exact (W _ _ _ _ J1 E).
    + congruence.
    + apply (F p r c E). congruence.
  - intros K. destruct (HL (o ++ [stem ++ str ".go"])) as [(b1 & src & o1 & s1 & t1 & [<-|[]] & _ & _ & _ & L)|(_ & [[(b1 & src & o1 & out & r & [<-|[]] & J1 & E) _]|[_ S]])].
    + pose proof (eq_trans (eq_sym L) K) as W. discriminate W.
    + destruct (HA b b' _ _ _ (or_introl eq_refl) (or_intror HI) J1) as [W _]. exact (W _ _ _ _ J E).
    + apply LN. exact (eq_trans (eq_sym S) K).
Qed.

Lemma after_apart : Apart cwd f1 bs.
Proof.
  intros b1 b2 src o out H1 H2 J. apply (after_job b1) in J; auto. destruct (HA b1 b2 src o out (or_intror H1) (or_intror H2) J) as [A1 A2].
  split; [|exact A2]. intros src' o' out' r J' E. apply (after_job b2) in J'; auto. eapply A1; eauto.
Qed.

Lemma after_left : forall f2, Left X C cwd bs f1 f2 -> Left X C cwd (b :: bs) f f2.
Proof.
  intros f2 L2 q. destruct (L2 q) as [(b1 & src & o & s & text & HI & J & LS & HC & LF)|(N2 & D2)].
  - left. exists b1, src, o, s, text. split; [now right|]. split; [now apply after_job|]. split; [|auto].
    destruct J as (dir & stem & P & _ & _ & -> & _). exact (eq_trans (eq_sym (after_source b1 dir stem HI P)) LS).
  - destruct (HL q) as [(b1 & src & o & s & text & [<-|[]] & J & LS & HC & LF)|(N1 & D1)].
    + left. exists b, src, o, s, text. split; [now left|]. split; auto. split; auto. split; auto. destruct D2 as [[(b2 & src2 & o2 & out2 & r & HI & J2 & E) _]|[_ S]]; [|congruence].
      exfalso. apply (after_job b2) in J2; auto. destruct (HA b2 b _ _ _ (or_intror HI) (or_introl eq_refl) J2) as [W _]. exact (W _ _ _ _ J E).
    + right. split.
      { intros b1 src o [<-|HI] J; [now apply (N1 b src o (or_introl eq_refl))|]. apply (N2 b1 src o HI). now apply after_job. }
      destruct D2 as [[(b2 & src2 & o2 & out2 & r & HI & J2 & E) D]|[K2 S2]].
      { left. split; auto. exists b2, src2, o2, out2, r. split; [now right|]. split; auto. now apply after_job. }
      destruct D1 as [[(b1 & src & o & out & r & [<-|[]] & J & E) D]|[K1 S1]].
      { left. split; [|congruence]. exists b, src, o, out, r. split; [now left|auto]. }
      right. split; [|congruence]. intros b1 src o out r [<-|HI] J; [now apply (K1 b src o out r (or_introl eq_refl))|]. apply (K2 b1 src o out r HI). now apply after_job.
Qed.
End After.

Lemma builds_ok : forall X C O cwd, calm O -> forall bs f, Tree f -> Forall (Buildable X C cwd f) bs -> Apart cwd f bs ->
  exists f', generateBuilds X C O cwd (map Some bs) f = (f', [], Success) /\ Tree f' /\ Left X C cwd bs f f'.
Proof.
  intros X C O cwd CO. induction bs as [|b bs IH]; intros f T HB HA; cbn [map generateBuilds].
  - exists f. split; auto. split; auto. intros q. right. split; [intros ? ? ? []|]. right. split; [intros ? ? ? ? ? []|reflexivity].
  - inversion HB as [|x y B1 BS]; subst. destruct (build_ok X C O cwd b f CO T B1) as (f1 & G & T1 & L). rewrite G.
    destruct (IH f1 T1) as (f' & R & T' & L').
    + rewrite Forall_forall in *. intros b' HI. eapply after_buildable; eauto.
    + eapply after_apart; eauto.
    + rewrite R. exists f'. split; auto. split; auto. eapply after_left; eauto.
Qed.

(** The command: if every build is buildable and they are apart, it succeeds, reports
    nothing and leaves the outputs. *)
Theorem C98_command : forall X C O cwd f bs, calm O -> Tree f -> (forall e, loadConfigFromDir C O f cwd <> inl e) ->
  buildsOf C O f cwd = map Some bs -> Forall (Buildable X C cwd f) bs -> Apart cwd f bs ->
  exists f', generateCmd X C O (Some cwd) f = (f', [], Success) /\ Tree f' /\ Left X C cwd bs f f'.
Proof.
  intros X C O cwd f bs CO T HN HB HF HA. destruct (builds_ok X C O cwd CO bs f T HF HA) as (f' & G & T' & L). exists f'. split; [|auto].
  unfold generateCmd, buildsOf in *. destruct (loadConfigFromDir C O f cwd) as [e|[c|]].
  - exfalso. now apply (HN e).
  - now rewrite HB.
  - rewrite <- HB in G. exact G.
Qed.

(** *** Without a configuration *)

Lemma dist_path : forall cwd, pathOf cwd (str "dist/") = Some (cwd ++ [str "dist"]).
Proof. reflexivity. Qed.

Lemma dot_path : forall cwd, pathOf cwd (str ".") = Some cwd.
Proof. reflexivity. Qed.

Definition defaultBuild : build := mkBuild [] (str ".") (str "dist/").

Lemma single_apart : forall cwd f b x, pathOf cwd (bSource b) = Some cwd -> pathOf cwd (bOut b) = Some (cwd ++ [x]) ->
  (forall stem, x <> stem ++ str ".cddl") -> Apart cwd f [b].
Proof.
  intros cwd f b0 x HS HO HX b b' src o out [<-|[]] [<-|[]] (dir & stem & P & PO & _ & _ & _). rewrite HO in PO. injection PO as <-. split.
  - intros src' o' out' r (dir' & stem' & _ & PO' & _ & _ & ->). rewrite HO in PO'. injection PO' as <-. apply longer.
  - intros dir' stem' r P' E. rewrite HS in P'. injection P' as <-. rewrite <- app_assoc in E. apply app_inv_head in E. injection E as E _. now apply HX in E.
Qed.

Lemma default_apart : forall cwd f, Apart cwd f [defaultBuild].
Proof.
  intros cwd f. apply (single_apart cwd f defaultBuild (str "dist")); [apply dot_path|apply dist_path|].
  intros stem E. apply (f_equal (@rev Z)) in E. rewrite rev_app_distr in E. discriminate E.
Qed.

(** In a directory without a configuration generate succeeds exactly if every source in it is
    a file that compiles, provided that nothing stands in the way of the outputs. *)
Theorem C98_default : forall X C O cwd f, calm O -> Tree f -> Listable O f cwd -> (forall n, ~ Candidate f cwd n) -> look f cwd = Some EDir ->
  (forall t, look f (cwd ++ [str "dist"]) <> Some (EFile t)) -> (forall n, look f (cwd ++ [str "dist"; n]) <> Some EDir) ->
  ((exists f' outs, generateCmd X C O (Some cwd) f = (f', outs, Success)) <->
   (forall stem, look f (cwd ++ [stem ++ str ".cddl"]) <> None -> exists s text, look f (cwd ++ [stem ++ str ".cddl"]) = Some (EFile s) /\ Compiled X C [] s text)) /\
  forall f' outs, generateCmd X C O (Some cwd) f = (f', outs, Success) -> outs = [] /\
    (forall stem s, look f (cwd ++ [stem ++ str ".cddl"]) = Some (EFile s) -> exists text, Compiled X C [] s text /\ look f' (cwd ++ [str "dist"; stem ++ str ".go"]) = Some (EFile text)) /\
    (forall q, (forall stem, look f (cwd ++ [stem ++ str ".cddl"]) <> None -> q <> cwd ++ [str "dist"] /\ q <> cwd ++ [str "dist"; stem ++ str ".go"]) -> look f' q = look f q).
Proof.
  intros X C O cwd f CO T HL HN LD FD FN.
  assert (N0 : loadConfigFromDir C O f cwd = inr None) by now apply (proj1 (C44_first C O f cwd HL)).
  assert (NE : forall e, loadConfigFromDir C O f cwd <> inl e) by (intros e; rewrite N0; discriminate).
  assert (BO : buildsOf C O f cwd = map Some [defaultBuild]) by (unfold buildsOf; now rewrite N0).
  assert (FR : Free f (cwd ++ [str "dist"])).
  { intros p r t E L. destruct r as [|x r] using rev_ind; [rewrite app_nil_r in E; subst p; exact (FD t L)|].
    clear IHr. rewrite app_assoc in E. apply app_inj_tail in E as [E _]. rewrite E in LD. destruct r as [|y r]; [rewrite app_nil_r in LD; congruence|].
    assert (K : look f (p ++ y :: r) <> None) by congruence. apply (tree_prefix f T) in K. congruence. }
  assert (EQ : Buildable X C cwd f defaultBuild <-> (forall stem, look f (cwd ++ [stem ++ str ".cddl"]) <> None -> exists s text, look f (cwd ++ [stem ++ str ".cddl"]) = Some (EFile s) /\ Compiled X C [] s text)).
  { split.
    - intros (dir & P & _ & K). cbn [bSource defaultBuild] in P. rewrite dot_path in P. injection P as <-. intros stem N. destruct (K stem N) as (o & s & text & _ & LS & HC & _). eauto.
    - intros K. exists cwd. split; [apply dot_path|]. split; auto. intros stem N. destruct (K stem N) as (s & text & LS & HC). exists (cwd ++ [str "dist"]), s, text.
      split; [apply dist_path|]. split; auto. split; auto. split; auto. rewrite <- app_assoc. apply FN. }
  assert (FW : Buildable X C cwd f defaultBuild -> exists f', generateCmd X C O (Some cwd) f = (f', [], Success) /\ Left X C cwd [defaultBuild] f f').
  { intros B. destruct (C98_command X C O cwd f [defaultBuild] CO T NE BO (Forall_cons _ B (Forall_nil _)) (default_apart cwd f)) as (f' & G & _ & L). eauto. }
  assert (BW : forall f' outs, generateCmd X C O (Some cwd) f = (f', outs, Success) -> Buildable X C cwd f defaultBuild).
  { intros f' outs H. unfold generateCmd in H. rewrite N0 in H. change (cfBuilds defaultConfig) with [Some defaultBuild] in H. cbn [generateBuilds] in H.
    destruct (generateBuild X C O cwd (Some defaultBuild) f) as [[f1 o1] oc] eqn:G. destruct oc; try discriminate H. apply (C98_build X C O cwd defaultBuild f CO T). eauto. }
  split.
  - rewrite <- EQ. split; [intros (f' & outs & H); eauto|]. intros B. destruct (FW B) as (f' & G & _). eauto.
  - intros f' outs H. pose proof (BW _ _ H) as B. destruct (FW B) as (f1 & G & L). rewrite H in G. injection G as -> ->. split; auto. split.
    + intros stem s LS. destruct (L (cwd ++ [str "dist"; stem ++ str ".go"])) as [(b & src & o & s1 & text & [<-|[]] & (dir & x & P & PO & _ & -> & E) & LS1 & HC & LF)|(N & _)].
      * cbn [bSource bOut defaultBuild] in P, PO. rewrite dot_path in P. rewrite dist_path in PO. injection P as <-. injection PO as <-. rewrite <- app_assoc in E. apply app_inv_head in E.
        injection E as E. apply app_inv_tail in E. subst x. exists text. split; [|exact LF]. pose proof (eq_trans (eq_sym LS) LS1) as W. injection W as ->. exact HC.
      * exfalso. apply (N defaultBuild (cwd ++ [stem ++ str ".cddl"]) (cwd ++ [str "dist"]) (or_introl eq_refl)). exists cwd, stem. split; [apply dot_path|]. split; [apply dist_path|].
        split; [intros K; pose proof (eq_trans (eq_sym LS) K) as W; discriminate W|]. split; auto. now rewrite <- app_assoc.
    + intros q HQ. assert (KD : forall dir, pathOf cwd (bSource defaultBuild) = Some dir -> dir = cwd) by (intros dir P; cbn [bSource defaultBuild] in P; rewrite dot_path in P; congruence).
      assert (KO : forall o, pathOf cwd (bOut defaultBuild) = Some o -> o = cwd ++ [str "dist"]) by (intros o P; cbn [bOut defaultBuild] in P; rewrite dist_path in P; congruence).
      destruct (L q) as [(b & src & o & s1 & text & [<-|[]] & (dir & x & P & PO & N & -> & E) & _)|(_ & [[(b & src & o & out & r & [<-|[]] & (dir & x & P & PO & N & -> & _) & E) D]|[_ S]])]; auto.
      * exfalso. apply KD in P. apply KO in PO. subst dir o. destruct (HQ x N) as [_ K]. apply K. rewrite <- app_assoc in E. exact E.
      * apply KD in P. apply KO in PO. subst dir o. destruct (HQ x N) as [K _]. destruct r as [|y r] using rev_ind; [exfalso; apply K; rewrite app_nil_r in E; congruence|].
        clear IHr. rewrite app_assoc in E. apply app_inj_tail in E as [E _]. rewrite D. symmetry. rewrite E in LD. destruct r as [|z r]; [now rewrite app_nil_r in LD|].
        apply (tree_prefix f T r q z). congruence.
Qed.

(** ** From the source to data *)

Lemma compiled_text : forall X C twice pkg s d ds text, Accepted X (cGen C) twice pkg s d ds -> Compiled X C pkg s text ->
  text = headerText (base (hd [] (cArgs C))) (tl (cArgs C)) ++ cFormat C pkg ds.
Proof.
  intros X C twice pkg s d ds text (root & p & g & P & _ & V & -> & _) (root' & p' & g' & P' & V' & ->). unfold clean in P. unfold parse in P'.
  pose proof (eq_trans (eq_sym P) P') as W. injection W as <- _. pose proof (eq_trans (eq_sym V) V') as W. injection W as <-.
  unfold fileText. rewrite (visit_pkg _ _ _ _ V : gPkg (genString (cGen C) g) = pkg). reflexivity.
Qed.

(** Let the builds be as in [C98_command], and let one of them have a source that is in the
    situation of C96 and alone in being compiled to its output. Then the command writes the
    types of the source to the output, their values are written as data the source
    describes, and are read back. *)
Theorem C98_end_to_end : forall X C O cwd f bs b src o out s E K opt twice d ds r n, calm O -> Tree f -> (forall e, loadConfigFromDir C O f cwd <> inl e) ->
  buildsOf C O f cwd = map Some bs -> Forall (Buildable X C cwd f) bs -> Apart cwd f bs ->
  In b bs -> Job cwd f b src o out -> (forall b' src' o', In b' bs -> Job cwd f b' src' o' out -> b' = b /\ src' = src) ->
  look f src = Some (EFile s) -> Generated X (cGen C) E K opt twice (bPackage b) s d ds r n ->
  exists f', generateCmd X C O (Some cwd) f = (f', [], Success) /\
    look f' out = Some (EFile (headerText (base (hd [] (cArgs C))) (tl (cArgs C)) ++ cFormat C (bPackage b) ds)) /\
    forall v, HasType ds (GIdent n) v -> Proper v ->
      exists x, Enc ds E (GIdent n) v x /\ Describes d (rName r) x /\ forall v', Dec ds E (GIdent n) x v' <-> v' = v.
Proof.
  intros X C O cwd f bs b src o out s E K opt twice d ds r n CO T HN HB HF HA HI HJ HU LS HG.
  destruct (C98_command X C O cwd f bs CO T HN HB HF HA) as (f' & G & _ & L). exists f'. split; [exact G|]. split.
  - destruct (L out) as [(b' & src' & o' & s' & text & HI' & HJ' & LS' & HC & LF)|(N & _)].
    + destruct (HU b' src' o' HI' HJ') as [-> ->]. pose proof (eq_trans (eq_sym LS) LS') as W. injection W as <-. rewrite LF. do 2 f_equal.
      destruct HG as (HAc & _). eapply compiled_text; eauto.
    + exfalso. exact (N b src o HI HJ).
  - intros v HT HV. pose proof HG as (HAc & HFr & HE & HP & HIn & HK & HNm).
    destruct (C82_sound _ _ _ _ _ _ _ _ _ _ _ _ _ HAc HFr HE HP HIn HK HNm HT HV) as (x & X1 & X2). exists x. pose proof (proj2 (X1 x) eq_refl) as HC.
    split; [exact HC|]. split; [exact X2|]. exact (C96_back _ _ _ _ _ _ _ _ _ _ _ _ _ _ HG HT HV HC).
Qed.

(** ** Examples *)

Lemma tree_by : forall f, forallb (fun qe => match look f (removelast (fst qe)) with Some EDir => true | _ => false end) f = true -> Tree f.
Proof.
  intros f H p c N. assert (NR : p ++ [c] <> []) by (destruct p; discriminate). apply (look_in f _ NR) in N as [e HI].
  rewrite forallb_forall in H. specialize (H _ HI). cbn [fst] in H. rewrite removelast_last in H. destruct (look f p) as [[|]|]; congruence.
Qed.

Lemma calm_sample : calm noRefusals.
Proof. intros p. repeat split. Qed.

Lemma compiled_by : forall C s, match parse X0 s with Ok ((Some root, None), _) => match visit (cGen C) root (newGenerator []) with Ok _ => true | _ => false end | _ => false end = true ->
  exists text, Compiled X0 C [] s text.
Proof.
  intros C s H. destruct (parse X0 s) as [[[[root|] [ds|]] p]| | |] eqn:P; try discriminate H. destruct (visit (cGen C) root (newGenerator [])) as [g| | |] eqn:V; try discriminate H.
  exists (fileText C g), root, p, g. auto.
Qed.

(** Two sources, one other file. *)
Definition twoFs : fs :=
  [(home, EDir); (home ++ [str "a.cddl"], EFile (str "a = [x: int]")); (home ++ [str "notes"], EFile []); (home ++ [str "c.cddl"], EFile (str "c = int"))].

Lemma in_names : forall f p l, names f p = l -> forall n, look f (p ++ [n]) <> None -> In n l.
Proof. intros f p l <- n. apply names_in. Qed.

Lemma none_below : forall f p n, forallb (fun qe => negb (peq (removelast (fst qe)) p)) f = true -> look f (p ++ [n]) = None.
Proof.
  intros f p n H. destruct (look f (p ++ [n])) eqn:L; auto. exfalso. assert (NR : p ++ [n] <> []) by (destruct p; discriminate).
  assert (N : look f (p ++ [n]) <> None) by congruence. apply (look_in f _ NR) in N as [e' HI]. rewrite forallb_forall in H. specialize (H _ HI). cbn [fst] in H.
  rewrite removelast_last, peq_refl in H. discriminate.
Qed.

Example C98_ex : calm noRefusals /\ Tree twoFs /\ Listable noRefusals twoFs home /\ (forall n, ~ Candidate twoFs home n) /\ look twoFs home = Some EDir /\
  (forall t, look twoFs (home ++ [str "dist"]) <> Some (EFile t)) /\ (forall n, look twoFs (home ++ [str "dist"; n]) <> Some EDir) /\
  (forall stem, look twoFs (home ++ [stem ++ str ".cddl"]) <> None -> exists s text, look twoFs (home ++ [stem ++ str ".cddl"]) = Some (EFile s) /\ Compiled X0 sampleCli [] s text) /\
  look (fst (fst (generateCmd X0 sampleCli noRefusals (Some home) twoFs))) (home ++ [str "dist"; str "c.go"]) = Some (EFile (header [str "/bin/cddlc"; str "generate"] ++ str "text")).
Proof.
  assert (NM : names twoFs home = [str "a.cddl"; str "c.cddl"; str "notes"]) by (vm_compute; reflexivity).
  split; [exact calm_sample|]. split; [apply tree_by; vm_compute; reflexivity|]. split; [vm_compute; repeat split|]. split.
  { intros n [N [r E]]. apply (in_names _ _ _ NM) in N. destruct N as [<-|[<-|[<-|[]]]]; discriminate E. }
  split; [reflexivity|]. split; [intros t; vm_compute; discriminate|]. split.
  { intros n. replace (home ++ [str "dist"; n]) with ((home ++ [str "dist"]) ++ [n]) by now rewrite <- app_assoc. rewrite none_below by (vm_compute; reflexivity). discriminate. }
  split; [|vm_compute; reflexivity].
  intros stem N. apply (in_names _ _ _ NM) in N. destruct N as [E|[E|[E|[]]]].
  - rewrite <- E. destruct (compiled_by sampleCli (str "a = [x: int]")) as [text HC]; [vm_compute; reflexivity|]. exists (str "a = [x: int]"), text. split; [reflexivity|exact HC].
  - rewrite <- E. destruct (compiled_by sampleCli (str "c = int")) as [text HC]; [vm_compute; reflexivity|]. exists (str "c = int"), text. split; [reflexivity|exact HC].
  - exfalso. apply (f_equal (@rev Z)) in E. rewrite rev_app_distr in E. discriminate E.
Qed.

(** Builds have to be apart: two builds that succeed one by one need not do so together. *)
Theorem C98_apart_refuted : exists X C O cwd f b b', calm O /\ Tree f /\ Buildable X C cwd f b /\ Buildable X C cwd f b' /\
  forall f' outs, generateBuilds X C O cwd [Some b; Some b'] f <> (f', outs, Success).
Proof.
  set (f := [(home, EDir); (home ++ [str "a.cddl"], EFile (str "a = int"))]).
  set (b := mkBuild [] (str ".") (str "x")). set (b' := mkBuild [] (str ".") (str "x/a.go")).
  assert (T : Tree f) by (apply tree_by; vm_compute; reflexivity).
  exists X0, sampleCli, noRefusals, home, f, b, b'. split; [exact calm_sample|]. split; [exact T|].
  assert (OK : forall b, (exists f' outs, generateBuild X0 sampleCli noRefusals home (Some b) f = (f', outs, Success)) -> Buildable X0 sampleCli home f b).
  { intros b0 H. now apply (C98_build X0 sampleCli noRefusals home b0 f calm_sample T). }
  split; [apply OK; eexists; eexists; vm_compute; reflexivity|]. split; [apply OK; eexists; eexists; vm_compute; reflexivity|].
  intros f' outs H. assert (R : snd (generateBuilds X0 sampleCli noRefusals home [Some b; Some b'] f) = Failure EOpen) by (vm_compute; reflexivity).
  rewrite H in R. discriminate R.
Qed.

(** The situation of [C98_end_to_end]: the source of the example of C96, and a configuration. *)
Definition goodBuild : build := mkBuild (str "main") (str ".") (str "gen").
Definition goodCli : CliExt :=
  mkCli XGo (fun _ _ => str "text") (fun _ => Some (mkConfig (str "1") [Some goodBuild])) (fun _ => None) (fun _ _ => None) (fun _ => []) (fun w => w) (fun _ => None) [str "cddlc"].
Definition goodFs : fs := [(home, EDir); (home ++ [str "cddlc.json"], EFile []); (home ++ [str "g.cddl"], EFile (printDoc d_good))].

Example C98_end_ex : calm noRefusals /\ Tree goodFs /\ (forall e, loadConfigFromDir goodCli noRefusals goodFs home <> inl e) /\
  buildsOf goodCli noRefusals goodFs home = map Some [goodBuild] /\ Forall (Buildable X0 goodCli home goodFs) [goodBuild] /\ Apart home goodFs [goodBuild] /\
  Job home goodFs goodBuild (home ++ [str "g.cddl"]) (home ++ [str "gen"]) (home ++ [str "gen"; str "g.go"]) /\
  look goodFs (home ++ [str "g.cddl"]) = Some (EFile (printDoc d_good)) /\
  Generated X0 (cGen goodCli) exported K_good false false (bPackage goodBuild) (printDoc d_good) d_good (declsOf (printDoc d_good))
    (snd (hd (one "" (ty INT)) (dRules d_good))) (str "Shape").
Proof.
  assert (T : Tree goodFs) by (apply tree_by; vm_compute; reflexivity).
  assert (LC : loadConfigFromDir goodCli noRefusals goodFs home = inr (Some (mkConfig (str "1") [Some goodBuild]))) by (vm_compute; reflexivity).
  split; [exact calm_sample|]. split; [exact T|]. split; [intros e; rewrite LC; discriminate|]. split; [unfold buildsOf; now rewrite LC|]. split.
  { constructor; [|constructor]. apply (C98_build X0 goodCli noRefusals home goodBuild goodFs calm_sample T). eexists. eexists. vm_compute. reflexivity. }
  split. { apply (single_apart home goodFs goodBuild (str "gen")); [reflexivity|reflexivity|]. intros stem E. apply (f_equal (@rev Z)) in E. rewrite rev_app_distr in E. discriminate E. }
  split. { exists home, (str "g"). repeat split. vm_compute. discriminate. }
  split; [reflexivity|]. exact (proj1 C96_ex).
Qed.
