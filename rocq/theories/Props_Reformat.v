(** Property C90: reformatting. The generated file depends neither on the layout of the
    source nor on its comments. *)
From Coq Require Import String.
From Verif Require Import Base Utf8 Token Strconv Ext Lexer LexSpec LexSpec2 LexSpec3 LexSeq LexOne Ast Env Diag Parser Doc ParseShape ParseSource TreeJson DocText LexWords Codegen Cli CliProofs
  Props_Lexer Props_LexFull Props_Parser Props_Doc Props_Codegen Props_Report Props_Cli Props_Layout.
Open Scope string_scope.
Open Scope list_scope.
Open Scope Z_scope.

(** ** Specification *)

(** A tree without comments: those at the end of rules and entries, and those between
    rules. *)
Definition isComment (n : node) : bool :=
  match n with NComment _ | NCommentGroup _ => true | _ => false end.

Fixpoint uncomment (n : node) : node :=
  match n with
  | NEntry p i v _ => NEntry p i (uncomment v) None
  | NTypeChoice p t a b => NTypeChoice p t (uncomment a) (uncomment b)
  | NGroupChoice p t a b => NGroupChoice p t (uncomment a) (uncomment b)
  | NUnwrap p t i => NUnwrap p t (uncomment i)
  | NTag p t a b i => NTag p t a b (uncomment i)
  | NEnumeration p t v => NEnumeration p t (uncomment v)
  | NOptional p t i => NOptional p t (uncomment i)
  | NNMOccurrence p t a b i => NNMOccurrence p t a b (uncomment i)
  | NSizeOp p t a b => NSizeOp p t (uncomment a) (uncomment b)
  | NRegexp p t b r => NRegexp p t b (uncomment r)
  | NBits p t a b => NBits p t (uncomment a) (uncomment b)
  | NComparator p t o a b => NComparator p t o (uncomment a) (uncomment b)
  | NRange p t a b => NRange p t (uncomment a) (uncomment b)
  | NGroup p l => NGroup p (map uncomment l)
  | NMap p t l => NMap p t (map uncomment l)
  | NArray p l => NArray p (map uncomment l)
  | NBadNode p t b e => NBadNode p t (uncomment b) e
  | NRule p i v _ => NRule p i (uncomment v) None
  | NCDDL p l => NCDDL p (flat_map (fun n => if isComment n then [] else [uncomment n]) l)
  | n => n
  end.

(** Neither positions nor comments. *)
Definition plain (n : node) : node := uncomment (strip n).

(** A document without its comments and without its optional commas. *)
Fixpoint quiet (e : expr) : expr :=
  match e with
  | XTagged g e => XTagged g (quiet e)
  | XBracket b es => XBracket b (quiets es)
  | XPrefix p e => XPrefix p (quiet e)
  | XInfix l o r => XInfix (quiet l) o (quiet r)
  | XMember k a v _ => XMember k a (quiet v) None
  | e => e
  end
with quiets (es : elems) : elems :=
  match es with
  | ENil => ENil
  | ECons _ e _ r => ECons [] (quiet e) false (quiets r)
  end.

Definition quietDoc (d : doc) : doc :=
  mkDoc (map (fun r => ([], mkDRule (rName (snd r)) (rAssign (snd r)) (quiet (rBody (snd r))))) (dRules d)) [].

(** ** The generator *)

Lemma ident_strip : forall X i, transpileIdentifier X (stripI i) = transpileIdentifier X i.
Proof. reflexivity. Qed.

Lemma typeOf_strip : forall n, typeOf (strip n) = typeOf n.
Proof. now destruct n. Qed.
Lemma typeOf_uncomment : forall n, typeOf (uncomment n) = typeOf n.
Proof. now destruct n. Qed.

Section same.
Variable X : GenExt.
Variable h : node -> node.
Hypothesis h_member : forall n, (forall m g, child n m -> transpileNode X (h m) g = transpileNode X m g) -> forall g, member X (h n) g = member X n g.

Lemma members_same : forall l, (forall n m g, In n l -> child n m -> transpileNode X (h m) g = transpileNode X m g) ->
  forall acc g, members X (map h l) acc g = members X l acc g.
Proof.
  induction l as [|n l IH]; intros H acc g; [reflexivity|]. cbn [members map]. rewrite h_member by (intros; eapply H; [left; reflexivity|auto]).
  destruct (member X n g) as [[[[?|] ?] ?]| | |]; cbn [rbind]; auto. apply IH. intros; eapply H; [right|]; eauto.
Qed.
End same.

Ltac inner H g :=
  match goal with |- context [transpileNode ?X (?h ?m) g] => rewrite (H m g) by constructor end.

Lemma strip_member : forall X n, (forall m g, child n m -> transpileNode X (strip m) g = transpileNode X m g) -> forall g, member X (strip n) g = member X n g.
Proof. intros X n H g. destruct n; cbn [strip member]; rewrite ?ident_strip; try reflexivity; inner H g; reflexivity. Qed.
Lemma uncomment_member : forall X n, (forall m g, child n m -> transpileNode X (uncomment m) g = transpileNode X m g) -> forall g, member X (uncomment n) g = member X n g.
Proof. intros X n H g. destruct n; cbn [uncomment member]; try reflexivity; inner H g; reflexivity. Qed.

(** Both at once for a node and its children, to reach the values of the entries. *)
Lemma transpile_strip : forall X n g, transpileNode X (strip n) g = transpileNode X n g.
Proof.
  intros X n. enough (K : (forall g, transpileNode X (strip n) g = transpileNode X n g) /\ forall m g, child n m -> transpileNode X (strip m) g = transpileNode X m g) by apply K.
  induction n as [n IH] using node_ind2. split; [|intros m g H; now apply IH].
  assert (H : forall m g, child n m -> transpileNode X (strip m) g = transpileNode X m g) by (intros m g HC; now apply IH).
  assert (HG : forall l, (forall m, In m l -> child n m) -> forall acc g, members X (map strip l) acc g = members X l acc g).
  { intros l HL. apply members_same; [apply strip_member|]. intros a m g HI HC. now apply (proj2 (IH a (HL a HI))). }
  intros g. destruct n; try reflexivity.
  - cbn [strip transpileNode]. inner H g. reflexivity.
  - cbn [strip transpileNode]. inner H g. reflexivity.
  - cbn [strip transpileNode]. rewrite typeOf_strip. inner H g. destruct (typeOf n1) as [[]|]; try reflexivity;
      (destruct (transpileNode X n2 g) as [[[s| |] g']| | |]; try reflexivity; cbn [rbind]; unfold sizable; rewrite typeOf_strip;
       destruct (typeOf n2) as [[]|]; try reflexivity; now destruct n1).
  - cbn [strip]. rewrite !group_eq, HG; [reflexivity|]. intros; now constructor.
  - cbn [strip]. rewrite !array_eq, HG; [reflexivity|]. intros; now constructor.
Qed.

Lemma transpile_uncomment : forall X n g, transpileNode X (uncomment n) g = transpileNode X n g.
Proof.
  intros X n. enough (K : (forall g, transpileNode X (uncomment n) g = transpileNode X n g) /\ forall m g, child n m -> transpileNode X (uncomment m) g = transpileNode X m g) by apply K.
  induction n as [n IH] using node_ind2. split; [|intros m g H; now apply IH].
  assert (H : forall m g, child n m -> transpileNode X (uncomment m) g = transpileNode X m g) by (intros m g HC; now apply IH).
  assert (HG : forall l, (forall m, In m l -> child n m) -> forall acc g, members X (map uncomment l) acc g = members X l acc g).
  { intros l HL. apply members_same; [apply uncomment_member|]. intros a m g HI HC. now apply (proj2 (IH a (HL a HI))). }
  intros g. destruct n; try reflexivity.
  - cbn [uncomment transpileNode]. inner H g. reflexivity.
  - cbn [uncomment transpileNode]. inner H g. reflexivity.
  - cbn [uncomment transpileNode]. rewrite typeOf_uncomment. inner H g. destruct (typeOf n1) as [[]|]; try reflexivity;
      (destruct (transpileNode X n2 g) as [[[s| |] g']| | |]; try reflexivity; cbn [rbind]; unfold sizable; rewrite typeOf_uncomment;
       destruct (typeOf n2) as [[]|]; try reflexivity; now destruct n1).
  - cbn [uncomment]. rewrite !group_eq, HG; [reflexivity|]. intros; now constructor.
  - cbn [uncomment]. rewrite !array_eq, HG; [reflexivity|]. intros; now constructor.
Qed.

Lemma literal_strip : forall n, literalKind (strip n) = literalKind n.
Proof. intros n. unfold literalKind. now rewrite typeOf_strip. Qed.
Lemma literal_uncomment : forall n, literalKind (uncomment n) = literalKind n.
Proof. intros n. unfold literalKind. now rewrite typeOf_uncomment. Qed.

Lemma visit_strip : forall X n g, visit X (strip n) g = visit X n g.
Proof.
  intros X n. induction n as [n IH] using node_ind2. intros g. destruct n; try reflexivity.
  - cbn [strip visit]. rewrite transpile_strip. destruct (transpileNode X n g) as [[[s| |] g']| | |]; cbn [rbind]; auto.
    rewrite ident_strip, literal_strip. reflexivity.
  - cbn [strip visit]. assert (H : forall m g, In m rules -> visit X (strip m) g = visit X m g) by (intros m g' HI; apply IH; now constructor).
    clear IH. revert g H. induction rules as [|r l IHl]; intros g H; [reflexivity|]. cbn [map]. rewrite H by now left.
    destruct (visit X r g); cbn [rbind]; auto. apply IHl. intros; apply H; now right.
Qed.

Lemma visit_uncomment : forall X n g, visit X (uncomment n) g = visit X n g.
Proof.
  intros X n. induction n as [n IH] using node_ind2. intros g. destruct n; try reflexivity.
  - cbn [uncomment visit]. rewrite transpile_uncomment. destruct (transpileNode X n g) as [[[s| |] g']| | |]; cbn [rbind]; auto.
    rewrite literal_uncomment. reflexivity.
  - cbn [uncomment visit]. assert (H : forall m g, In m rules -> visit X (uncomment m) g = visit X m g) by (intros m g' HI; apply IH; now constructor).
    clear IH. revert g H. induction rules as [|r l IHl]; intros g H; [reflexivity|]. cbn [flat_map]. destruct (isComment r) eqn:E.
    + cbn [app]. rewrite IHl by (intros; apply H; now right). destruct r; try discriminate E; reflexivity.
    + cbn [app]. rewrite H by now left. destruct (visit X r g); cbn [rbind]; auto. apply IHl. intros; apply H; now right.
Qed.

(** Neither positions nor comments have any effect on what is generated. *)
Theorem C90_tree : forall X t t' g, plain t = plain t' -> visit X t g = visit X t' g.
Proof. intros X t t' g H. rewrite <- (visit_strip X t), <- (visit_strip X t'), <- (visit_uncomment X (strip t)), <- (visit_uncomment X (strip t')). unfold plain in H. now rewrite H. Qed.

(** ** The command *)

(** What [generate] can tell of two parses. *)
Definition drawn (a b : res (fileResult * parser)) : Prop :=
  match a, b with
  | Ok ((t, None), _), Ok ((t', None), _) => plain (rootNode t) = plain (rootNode t')
  | Ok ((_, Some ds), _), Ok ((_, Some ds'), _) => length ds = length ds'
  | Panic, Panic => True
  | _, _ => False
  end.

(** The same file text, or none in both cases. *)
Definition sameFile (X : Ext) (C : CliExt) (s s' : bytes) : Prop := forall pkg text, Compiled X C pkg s text <-> Compiled X C pkg s' text.

(** Generating from two sources at [src] ends in the same way, with as many reports, and
    leaves the same files apart from the sources. *)
Definition sameRun (X : Ext) (C : CliExt) (s s' : bytes) : Prop := forall O pkg src out f f',
  (forall r, out <> src ++ r) -> (forall q, q <> src -> look f' q = look f q) ->
  readFile O f src = Some s -> readFile O f' src = Some s' ->
  let '(g, o, oc) := generateFile X C O pkg src out f in
  let '(g', o', oc') := generateFile X C O pkg src out f' in
  oc' = oc /\ length o' = length o /\ forall q, q <> src -> look g' q = look g q.

Lemma drawn_file : forall X C s s', drawn (parse X s) (parse X s') -> sameFile X C s s'.
Proof.
  intros X C s s' H pkg text. split; intros (root & p & g & P & V & ->); rewrite P in H; unfold drawn in H.
  - destruct (parse X s') as [[[t [ds|]] p']| | |] eqn:P'; try contradiction. destruct t as [t|].
    + exists t, p', g. split; auto. split; auto. rewrite <- V. apply C90_tree. now symmetry.
    + exfalso. destruct (parse_root _ _ _ _ _ P) as [K|(rules & K)]; [discriminate|]. injection K as ->. discriminate H.
  - destruct (parse X s) as [[[t [ds|]] p']| | |] eqn:P'; try contradiction. destruct t as [t|].
    + exists t, p', g. split; auto. split; auto. rewrite <- V. now apply C90_tree.
    + exfalso. destruct (parse_root _ _ _ _ _ P) as [K|(rules & K)]; [discriminate|]. injection K as ->. discriminate H.
Qed.

Lemma out_same : forall O f f' src out s s', (forall r, out <> src ++ r) -> (forall q, q <> src -> look f' q = look f q) ->
  readFile O f src = Some s -> readFile O f' src = Some s' ->
  match openWrite O true f out, openWrite O true f' out with
  | Some g, Some g' => forall q, q <> src -> look g' q = look g q
  | None, None => True
  | _, _ => False
  end.
Proof.
  intros O f f' src out s s' NP L R R'. assert (N : out <> src) by (intros ->; apply (NP []); now rewrite app_nil_r).
  assert (B : blocked f' out = blocked f out).
  { apply blocked_same. intros a c r E. apply L. intros ->. exact (NP _ E). }
  unfold openWrite. rewrite B. destruct (oOpen O out || blocked f out); auto. rewrite (L out N).
  assert (S : forall q, q <> src -> look (set f' out (EFile [])) q = look (set f out (EFile [])) q).
  { intros q Q. destruct (list_eq_dec (list_eq_dec Z.eq_dec) q out) as [->|NQ].
    - destruct out as [|c out]; [reflexivity|]. rewrite !look_same by discriminate. reflexivity.
    - rewrite !look_other by auto. auto. }
  destruct (look f out) as [[c|]|] eqn:E; auto.
  destruct (list_eq_dec (list_eq_dec Z.eq_dec) (removelast out) src) as [K|K].
  - exfalso. destruct out as [|c out].
    + cbn in K. apply (NP []). now rewrite <- K.
    + apply (NP [last (c :: out) []]). rewrite <- K. apply app_removelast_last. discriminate.
  - rewrite (L _ K). destruct (look f (removelast out)) as [[?|]|]; auto.
Qed.

Lemma append_alike : forall f f' src p d, p <> src -> (forall q, q <> src -> look f' q = look f q) ->
  forall q, q <> src -> look (append f' p d) q = look (append f p d) q.
Proof.
  intros f f' src p d N L q Q. unfold append. rewrite (L p N). destruct (look f p) as [[c|]|]; auto.
  destruct (list_eq_dec (list_eq_dec Z.eq_dec) q p) as [->|NQ].
  - destruct p as [|x p]; [reflexivity|]. rewrite !look_same by discriminate. reflexivity.
  - rewrite !look_other by auto. auto.
Qed.

Lemma pairs_length : forall A B (R : A -> B -> Prop) l m, Forall2 R l m -> length l = length m.
Proof. induction 1; cbn; congruence. Qed.

Lemma drawn_run : forall X C s s', decodable s -> decodable s' -> drawn (parse X s) (parse X s') -> sameRun X C s s'.
Proof.
  intros X C s s' D D' H O pkg src out f f' NP L R R'. pose proof (out_same O f f' src out s s' NP L R R') as W.
  assert (N : out <> src) by (intros ->; apply (NP []); now rewrite app_nil_r).
  unfold generateFile. rewrite R, R'. destruct (openWrite O true f out) as [g|], (openWrite O true f' out) as [g'|]; try contradiction; [|repeat split; auto].
  destruct (parse X s) as [[[t [ds|]] p]| | |] eqn:P, (parse X s') as [[[t' [ds'|]] p']| | |] eqn:P'; cbn [drawn] in H; try contradiction; [| |repeat split; auto].
  - destruct (C26_reports X C s _ _ _ _ _ D (le_n _) P) as (o & -> & F). destruct (C26_reports X C s' _ _ _ _ _ D' (le_n _) P') as (o' & -> & F').
    apply pairs_length in F; apply pairs_length in F'. repeat split; auto. congruence.
  - rewrite <- (C90_tree _ _ _ (newGenerator pkg) H). destruct (visit (cGen C) (rootNode t) (newGenerator pkg)) as [G| | |]; cbn [ended]; try (repeat split; auto; fail).
    destruct (oWrite O out); [repeat split; auto|]. repeat split; auto. apply append_alike; auto. apply append_alike; auto.
Qed.

(** ** Layout *)

Lemma outcome_drawn : forall a b, sameOutcome a b -> drawn a b.
Proof.
  intros a b H. destruct a as [[[t ds] p]| | |], b as [[[t' ds'] p']| | |]; cbn in *; auto; try contradiction.
  destruct H as (HT & HD & _). destruct ds as [ds|], ds' as [ds'|]; try discriminate HD.
  - injection HD as HD. apply (f_equal (@length _)) in HD. now rewrite !map_length in HD.
  - unfold plain. destruct t as [t|], t' as [t'|]; try discriminate HT; auto. injection HT as HT. cbn [rootNode]. now rewrite HT.
Qed.

(** Whatever blanks and newlines separate the tokens, the generated file is the same, as is
    everything else [generate] does. *)
Theorem C90_layout : forall X C s s', decodable s -> decodable s' -> Reflow X true s s' -> sameFile X C s s' /\ sameRun X C s s'.
Proof.
  intros X C s s' D D' H. assert (K : drawn (parse X s) (parse X s')) by (apply outcome_drawn; now apply C84_layout).
  split; [now apply drawn_file|now apply drawn_run].
Qed.

(** ** Comments *)

Lemma quiet_uint : forall e, match tree (quiet e) with NIntegerLiteral _ _ v => Some (mkUint z UINT v) | _ => None end =
  match tree e with NIntegerLiteral _ _ v => Some (mkUint z UINT v) | _ => None end.
Proof. intros e. destruct e as [[]|[]|[] ?|[] ?|[] ?|? [] ?|? ? ? ?]; reflexivity. Qed.
Lemma quiet_text : forall e, match tree (quiet e) with NTstrType p t => Some (p, t) | _ => None end = match tree e with NTstrType p t => Some (p, t) | _ => None end.
Proof. intros e. destruct e as [[]|[]|[] ?|[] ?|[] ?|? [] ?|? ? ? ?]; reflexivity. Qed.

Lemma quiet_tree : (forall e, uncomment (tree (quiet e)) = uncomment (tree e)) /\ (forall es, map uncomment (trees (quiets es)) = map uncomment (trees es)).
Proof.
  apply expr_elems_ind; intros; cbn [quiet quiets tree trees map]; auto.
  - destruct g; cbn [treeTag uncomment]; now rewrite H.
  - destruct b; cbn [treeBracket uncomment]; now rewrite H.
  - destruct p; cbn [treePrefix uncomment]; now rewrite H.
  - destruct o; cbn [treeInfix uncomment]; rewrite ?quiet_uint, ?quiet_text, ?H, ?H0; reflexivity.
  - cbn [uncomment]. now rewrite H.
  - now rewrite H, H0.
Qed.

Lemma quiet_refs : (forall e, refs (quiet e) = refs e) /\ (forall es, refsElems (quiets es) = refsElems es).
Proof. apply expr_elems_ind; intros; cbn [quiet quiets refs refsElems]; auto; congruence. Qed.

Definition code (l : list node) : list node := flat_map (fun n => if isComment n then [] else [uncomment n]) l.

Lemma comments_code : forall l, code (treeComments l) = [].
Proof. intros [|a [|b l]]; reflexivity. Qed.

Lemma quiet_doc : forall d, uncomment (docTree (quietDoc d)) = uncomment (docTree d).
Proof.
  intros [rs final]. unfold docTree, quietDoc. cbn [dRules dFinal uncomment]. f_equal.
  change (code (treeRules (map (fun r => ([], mkDRule (rName (snd r)) (rAssign (snd r)) (quiet (rBody (snd r))))) rs) []) = code (treeRules rs final)).
  induction rs as [|[lead r] rs IH]; cbn [map treeRules].
  - rewrite !comments_code; reflexivity.
  - assert (A : forall a b, code (a ++ b) = code a ++ code b) by apply flat_map_app. rewrite !A, !comments_code. cbn [treeComments app fst snd rName rBody].
    change (NRule z (mkIdent z (rName r)) (uncomment (tree (quiet (rBody r)))) None :: code (treeRules (map (fun r => ([], mkDRule (rName (snd r)) (rAssign (snd r)) (quiet (rBody (snd r))))) rs) []) =
      NRule z (mkIdent z (rName r)) (uncomment (tree (rBody r))) None :: code (treeRules rs final)).
    now rewrite (proj1 quiet_tree), IH.
Qed.

Lemma quiet_resolved : forall e d, resolved e (quietDoc d) <-> resolved e d.
Proof.
  intros e d. unfold resolved.
  assert (R : docRefs (quietDoc d) = docRefs d).
  { unfold docRefs, quietDoc. cbn [dRules]. rewrite flat_map_concat_map, map_map, <- flat_map_concat_map. apply flat_map_ext. intros r. cbn. apply quiet_refs. }
  assert (N : map fst (docDefs (quietDoc d)) = map fst (docDefs d)).
  { unfold docDefs, quietDoc. cbn [dRules]. induction (dRules d) as [|r l IH]; [reflexivity|]. cbn. rewrite !map_app, IH. destruct (teq (rAssign (snd r)) ASSIGN); reflexivity. }
  rewrite R, N. tauto.
Qed.

Lemma parses_plain : forall X s d, parsesAs X s [] d -> exists root p, parse X s = Ok ((Some root, None), p) /\ plain root = uncomment (docTree (quietDoc d)).
Proof.
  intros X s d (root & p & defs & HC & HS & _). exists root, p. split; [exact HC|]. unfold plain. now rewrite HS, quiet_doc.
Qed.

(** Sources that write documents which differ only in comments and commas. *)
Theorem C90_comments : forall X C s s' d d', wfDoc X d -> wfDoc X d' -> resolved [] d -> quietDoc d = quietDoc d' ->
  writes s (showDoc d) -> writes s' (showDoc d') -> sameFile X C s s' /\ sameRun X C s s'.
Proof.
  intros X C s s' d d' W W' R Q S S'.
  assert (R' : resolved [] d') by (apply quiet_resolved; rewrite <- Q; now apply quiet_resolved).
  assert (E : envOk []) by (split; constructor).
  destruct (parses_plain _ _ _ (C16_written X s [] d E W R S)) as (t & p & P & T).
  destruct (parses_plain _ _ _ (C16_written X s' [] d' E W' R' S')) as (t' & p' & P' & T').
  assert (K : drawn (parse X s) (parse X s')) by (rewrite P, P'; cbn [drawn rootNode]; rewrite T, T', Q; reflexivity).
  destruct S as (i & S & _), S' as (i' & S' & _).
  split; [now apply drawn_file|]. apply drawn_run; [exact (spaced_good _ _ S)|exact (spaced_good _ _ S')|exact K].
Qed.

(** ** Deleting comments *)

(** A document without its comments. *)
Fixpoint hush (e : expr) : expr :=
  match e with
  | XTagged g e => XTagged g (hush e)
  | XBracket b es => XBracket b (hushes es)
  | XPrefix p e => XPrefix p (hush e)
  | XInfix l o r => XInfix (hush l) o (hush r)
  | XMember k a v _ => XMember k a (hush v) None
  | e => e
  end
with hushes (es : elems) : elems :=
  match es with
  | ENil => ENil
  | ECons _ e comma r => ECons [] (hush e) comma (hushes r)
  end.

Definition hushDoc (d : doc) : doc :=
  mkDoc (map (fun r => ([], mkDRule (rName (snd r)) (rAssign (snd r)) (hush (rBody (snd r))))) (dRules d)) [].

(** Commas between all elements. *)
Fixpoint commas (e : expr) : Prop :=
  match e with
  | XTagged _ e => commas e
  | XBracket _ es => commasIn es
  | XPrefix _ e => commas e
  | XInfix l _ r => commas l /\ commas r
  | XMember _ _ v _ => commas v
  | _ => True
  end
with commasIn (es : elems) : Prop :=
  match es with
  | ENil => True
  | ECons _ e comma r => commas e /\ (r = ENil \/ comma = true) /\ commasIn r
  end.

Lemma hush_quiet : (forall e, quiet (hush e) = quiet e) /\ (forall es, quiets (hushes es) = quiets es).
Proof. apply expr_elems_ind; intros; cbn [quiet quiets hush hushes]; auto; congruence. Qed.

Lemma hush_primary : forall e, primary (hush e) = primary e.
Proof. now destruct e. Qed.
Lemma hush_leadsInt : forall e, leadsInt (hush e) = leadsInt e.
Proof. induction e; auto. Qed.
Lemma hush_spine : forall e, spine (hush e) = match spine e with None => None | Some _ => Some None end.
Proof. induction e; auto. Qed.
Lemma show_first : forall e c d, firstTok (show (hush e) c) d = firstTok (show e c) d.
Proof.
  induction e; intros c d; try reflexivity. cbn [hush show].
  assert (K : forall e c x l, firstTok (show e c ++ x :: l) d = firstTok (show e c) (xTok x)).
  { clear. intros e. assert (N : forall c, show e c <> []) by (induction e; intros c; cbn; try discriminate; specialize (IHe1 false); destruct (show e1 false); [congruence|discriminate]).
    intros c x l. specialize (N c). destruct (show e c); [congruence|reflexivity]. }
  rewrite !K. apply IHe1.
Qed.
Lemma hush_entry : forall e, isGroupEntry (tree (hush e)) = isGroupEntry (tree e).
Proof. intros e. destruct e as [[]|[]|[] ?|[] ?|[] ?|? [] ?|? ? ? ?]; reflexivity. Qed.

Lemma hush_wf : (forall X e, wf X e -> commas e -> wf X (hush e)) /\ (forall X es group, wfElems X group es -> commasIn es -> wfElems X group (hushes es)).
Proof.
  assert (K : forall X, (forall e, wf X e -> commas e -> wf X (hush e)) /\ (forall es, forall group, wfElems X group es -> commasIn es -> wfElems X group (hushes es))).
  { intros X. apply expr_elems_ind; cbn [wf wfElems hush hushes commas commasIn]; auto.
    - tauto.
    - intros p e IH (H1 & H2) C. rewrite hush_leadsInt. auto.
    - intros l IHl o r IHr (H1 & H2 & H3 & H4) (C1 & C2). rewrite hush_primary. repeat split; auto.
      destruct o; cbn [wfOper] in *; auto.
      + destruct H4 as (HI & k & -> & HK). split; auto. now exists k.
      + destruct H4 as (k & -> & HK). now exists k.
      + destruct H4 as ((k & -> & HK) & HT). split; [now exists k|]. now rewrite show_first.
      + destruct H4 as ((w & v & ->) & HT). split; [now exists w, v|]. now rewrite hush_leadsInt.
      + destruct H4 as [(w & v & w' & v' & -> & ->)|(w & v & w' & v' & -> & ->)]; [left|right]; now exists w, v, w', v'.
    - intros k a v IH tc (H1 & H2 & H3 & H4) C. rewrite hush_spine, H3. auto.
    - intros lead e IHe comma r IHr group (H1 & H2 & H3 & H4 & H5) (C1 & C2 & C3). rewrite hush_entry. repeat split; auto.
      + intros HC. destruct C2 as [-> | ->]; [reflexivity|]. unfold closed in HC. rewrite hush_spine in HC. destruct (spine e); discriminate HC.
      + intros -> _. destruct C2 as [-> | C2]; [|discriminate]. cbn. intuition discriminate. }
  split; intros X; [apply (K X)|]. intros es group. revert es. intros es. now apply (K X).
Qed.

Lemma hush_doc : forall X d, wfDoc X d -> Forall (fun r => commas (rBody (snd r))) (dRules d) -> wfDoc X (hushDoc d).
Proof.
  intros X d (H1 & H2) HC. split; [|constructor]. unfold hushDoc. cbn [dRules]. rewrite Forall_forall in *. intros r Hr. apply in_map_iff in Hr. destruct Hr as (r0 & <- & Hr).
  cbn [fst snd]. split; [constructor|]. destruct (H1 _ Hr) as (_ & W1 & W2 & W3 & W4). unfold wfRule. cbn [rName rAssign rBody]. repeat split; auto.
  - apply hush_wf; auto.
  - intros c. rewrite hush_spine. destruct (spine (rBody (snd r0))); discriminate.
Qed.

(** Deleting all comments of a document with commas between the elements of its groups. *)
Theorem C90_delete : forall X C s s' d, wfDoc X d -> resolved [] d -> Forall (fun r => commas (rBody (snd r))) (dRules d) ->
  writes s (showDoc d) -> writes s' (showDoc (hushDoc d)) -> sameFile X C s s' /\ sameRun X C s s'.
Proof.
  intros X C s s' d W R HC S S'. apply (C90_comments X C s s' d (hushDoc d)); auto; [now apply hush_doc|].
  unfold quietDoc, hushDoc. cbn [dRules]. rewrite map_map. f_equal. apply map_ext. intros r. cbn [fst snd rName rAssign rBody]. now rewrite (proj1 hush_quiet).
Qed.

(** ** Examples *)

Ltac gaps := repeat (apply Forall_cons; [unfold blank; lia|]); apply Forall_nil.
Ltac lexed := eapply lexed_by; [now apply good_by_ascii|cbn; unfold blank; lia|vm_compute; reflexivity].

(** One source in two layouts, and what is generated from it. *)
Example C90_ex_layout : exists s s' text, s <> s' /\ decodable s /\ decodable s' /\ Reflow X0 true s s' /\ Compiled X0 sampleCli (str "main") s text.
Proof.
  exists (str "a=(b:int)"), (32 :: str "a = (" ++ 10 :: str "b : int )" ++ [10]), (fileText sampleCli (newGenerator [])).
  split; [discriminate|]. split; [now apply good_by_ascii|]. split; [now apply good_by_ascii|]. split.
  - apply (rf_lexeme X0 true [] [32] IDENT (str "a") (str "a") (str "=(b:int)") (str " = (" ++ 10 :: str "b : int )" ++ [10])); [gaps|gaps|discriminate|lexed|lexed|discriminate|].
    apply (rf_lexeme X0 false [] [32] ASSIGN (str "=") (str "=") (str "(b:int)") (str " (" ++ 10 :: str "b : int )" ++ [10])); [gaps|gaps|discriminate|lexed|lexed|discriminate|].
    apply (rf_lexeme X0 false [] [32] LPAREN (str "(") (str "(") (str "b:int)") (10 :: str "b : int )" ++ [10])); [gaps|gaps|discriminate|lexed|lexed|discriminate|].
    apply (rf_lexeme X0 false [] [10] IDENT (str "b") (str "b") (str ":int)") (str " : int )" ++ [10])); [gaps|gaps|discriminate|lexed|lexed|discriminate|].
    apply (rf_lexeme X0 false [] [32] COLON (str ":") (str ":") (str "int)") (str " int )" ++ [10])); [gaps|gaps|discriminate|lexed|lexed|discriminate|].
    apply (rf_lexeme X0 false [] [32] INT (str "int") (str "int") (str ")") (str " )" ++ [10])); [gaps|gaps|discriminate|lexed|lexed|discriminate|].
    apply (rf_lexeme X0 false [] [32] RPAREN (str ")") (str ")") [] [10]); [gaps|gaps|discriminate|lexed|lexed|discriminate|].
    apply rf_end; gaps.
  - do 3 eexists. split; [vm_compute; reflexivity|]. split; [vm_compute; reflexivity|reflexivity].
Qed.

(** A document with a comment in every place, and the text without them. *)
Definition noted : doc := mkDoc
  [([str " people"; str " and such"], mkDRule (str "person") ASSIGN (XBracket BArray
     (ECons [] (nm "name" (ty TSTR) (Some (str " given"))) true
     (ECons [str " own line"] (XPrefix PreOpt (nm "age" (ty UINT) None)) false ENil))))]
  [str " end"].

Example C90_ex : wfDoc X1 noted /\ resolved [] noted /\ Forall (fun r => commas (rBody (snd r))) (dRules noted) /\
  writes (printDoc noted) (showDoc noted) /\ writes (printDoc (hushDoc noted)) (showDoc (hushDoc noted)) /\
  printDoc (hushDoc noted) = str " person = [ name : tstr , ? age : uint ]" ++ [10] /\
  exists text, Compiled X1 sampleCli (str "main") (printDoc noted) text.
Proof.
  assert (W : wfDoc X1 noted) by (unfold wfDoc, noted, nm, ty; cbn [dRules dFinal]; wf_by).
  assert (HC : Forall (fun r => commas (rBody (snd r))) (dRules noted)) by (cbn; repeat constructor).
  split; [exact W|]. split.
  { split; [vm_compute; repeat (constructor; [simpl; intuition discriminate|]); constructor|]. intros w Hw. vm_compute in Hw. contradiction. }
  split; [exact HC|]. split; [now apply (printDoc_writes X1)|]. split; [apply (printDoc_writes X1); now apply hush_doc|]. split; [vm_compute; reflexivity|].
  do 4 eexists. split; [vm_compute; reflexivity|]. split; [vm_compute; reflexivity|reflexivity].
Qed.

(** Without a comma a comment separates two elements: without it the star belongs to the
    element before. The number of fields generated. *)
Definition countCli : CliExt :=
  mkCli (cGen sampleCli) (fun _ ds => match ds with GType _ _ (GStruct l) :: _ => [zlen l] | _ => [] end)
        (cJson sampleCli) (cYaml sampleCli) (cGlob sampleCli) (cFmtV sampleCli) (cQuote sampleCli) (cMarshal sampleCli) (cArgs sampleCli).

Theorem C90_comma_refuted : exists a c b text text', decodable (a ++ 59 :: c ++ 10 :: b) /\ ~ In 10 c /\ hd 0 (rev a) = 10 /\
  Compiled X0 countCli [] (a ++ 59 :: c ++ 10 :: b) text /\ Compiled X0 countCli [] (a ++ b) text' /\ text <> text'.
Proof.
  exists (str "x = [ a : 1" ++ [10]), (str " more"), (str " * int ]").
  assert (H : exists g g' root root' p p', parse X0 ((str "x = [ a : 1" ++ [10]) ++ 59 :: str " more" ++ 10 :: str " * int ]") = Ok ((Some root, None), p) /\
    parse X0 ((str "x = [ a : 1" ++ [10]) ++ str " * int ]") = Ok ((Some root', None), p') /\
    visit (cGen countCli) root (newGenerator []) = Ok g /\ visit (cGen countCli) root' (newGenerator []) = Ok g' /\ fileText countCli g <> fileText countCli g').
  { do 6 eexists. split; [vm_compute; reflexivity|]. split; [vm_compute; reflexivity|]. split; [vm_compute; reflexivity|]. split; [vm_compute; reflexivity|]. vm_compute. discriminate. }
  destruct H as (g & g' & root & root' & p & p' & H1 & H2 & H3 & H4 & H5). exists (fileText countCli g), (fileText countCli g').
  split; [now apply good_by_ascii|]. split; [simpl; intuition discriminate|]. split; [reflexivity|].
  split; [exists root, p, g; exact (conj H1 (conj H3 eq_refl))|]. split; [exists root', p', g'; exact (conj H2 (conj H4 eq_refl))|exact H5].
Qed.

(** A comment on a line of its own and the same comment on the line of the rule before it. *)
Theorem C90_moved_refuted : exists a c b text, decodable (a ++ 10 :: 59 :: c ++ 10 :: b) /\ ~ In 10 c /\
  Compiled X0 sampleCli [] (a ++ 10 :: 59 :: c ++ 10 :: b) text /\ forall text', ~ Compiled X0 sampleCli [] (a ++ 32 :: 59 :: c ++ 10 :: b) text'.
Proof.
  exists (str "x = int"), (str " more"), (str "y = x").
  assert (H : exists g root p, parse X0 (str "x = int" ++ 10 :: 59 :: str " more" ++ 10 :: str "y = x") = Ok ((Some root, None), p) /\ visit (cGen sampleCli) root (newGenerator []) = Ok g).
  { do 3 eexists. split; [vm_compute; reflexivity|]. vm_compute. reflexivity. }
  destruct H as (g & root & p & H1 & H2). exists (fileText sampleCli g).
  split; [now apply good_by_ascii|]. split; [simpl; intuition discriminate|]. split; [exists root, p, g; exact (conj H1 (conj H2 eq_refl))|].
  assert (K : match parse X0 (str "x = int" ++ 32 :: 59 :: str " more" ++ 10 :: str "y = x") with Ok ((Some _, None), _) => true | _ => false end = false) by (vm_compute; reflexivity).
  intros text' (r' & p' & g' & P & _). rewrite P in K. discriminate K.
Qed.
