(** Property C97: the texts of comments, identifiers and files. *)
From Coq Require Import String.
From Verif Require Import Base Utf8 Token Ext LexSpec LexSpec2 Lexer LexerProofs Ast Env Diag Parser ParseSpec ParseTop ParseSource
  Doc DocProofs Texts Props_Lexer Props_Parser Props_Doc.
Open Scope string_scope.
Open Scope list_scope.
Open Scope Z_scope.

(** ** Specification *)

(** Comments on lines of their own, each below some blanks, which may be empty lines. *)
Fixpoint commentLines (ls : list (bytes * bytes)) : bytes :=
  match ls with
  | [] => []
  | (g, w) :: r => g ++ 59 :: w ++ 10 :: commentLines r
  end.

Definition lineOk (l : bytes * bytes) : Prop := allBlank (fst l) /\ decodable (snd l) /\ ~ In 10 (snd l).

(** Lines of text. *)
Definition textOf (ws : list bytes) : bytes := concat (map (fun w => w ++ [10]) ws).

(** What the comments among the entries of a file say. *)
Definition said (n : node) : bytes :=
  match n with
  | NComment c => cText c ++ [10]
  | NCommentGroup l => commentGroupString (Some l)
  | _ => []
  end.

Definition docComments (d : doc) : list bytes := flat_map fst (dRules d) ++ dFinal d.

(** ** Proofs *)

Lemma fold_text : forall l out, fold_left (fun o c => o ++ cText c ++ [10]) l out = out ++ textOf (map cText l).
Proof.
  unfold textOf. induction l as [|c l IH]; intros out; simpl; [now rewrite app_nil_r|]. rewrite IH. now rewrite <- !app_assoc.
Qed.

(** The text of a group is its comments, each followed by a newline. *)
Theorem C97_group_text : forall l, commentGroupString (Some l) = textOf (map cText l).
Proof. intros l. unfold commentGroupString. now rewrite fold_text. Qed.

Lemma split_line : forall a b r t, ~ In 10 a -> ~ In 10 b -> a ++ 10 :: r = b ++ 10 :: t -> a = b /\ r = t.
Proof.
  induction a as [|x a IH]; intros [|y b] r t A B E; simpl in *; inversion E; subst; auto.
  - exfalso; apply B; now left.
  - exfalso; apply A; now left.
  - destruct (IH b r t) as [-> ->]; auto.
Qed.

(** It determines them, if they are free of newlines. *)
Theorem C97_group_text_determines : forall l m,
  Forall (fun c => ~ In 10 (cText c)) l -> Forall (fun c => ~ In 10 (cText c)) m ->
  (commentGroupString (Some l) = commentGroupString (Some m) <-> map cText l = map cText m).
Proof.
  intros l m L M. rewrite !C97_group_text. split; [|now intros ->]. revert m M. induction L as [|c l C L IH]; intros [|d m] M E.
  - reflexivity.
  - exfalso. unfold textOf in E. simpl in E. destruct (cText d); discriminate.
  - exfalso. unfold textOf in E. simpl in E. destruct (cText c); discriminate.
  - inversion M; subst. unfold textOf in E. simpl in E. rewrite <- !app_assoc in E. simpl in E.
    destruct (split_line _ _ _ _ C H1 E) as [E1 E2]. simpl. rewrite E1. f_equal. now apply IH.
Qed.

Theorem C97_ident_text : forall i j, identString i = identString j <-> iName i = iName j.
Proof.
  intros i j. unfold identString. split; [|now intros ->]. intros E. apply app_inv_head in E. now apply app_inv_tail in E.
Qed.

Lemma strip_entries : forall r d, strip r = docTree d -> exists p l, r = NCDDL p l /\ map strip l = treeRules (dRules d) (dFinal d).
Proof.
  intros r d H. destruct r; try discriminate. simpl in H. injection H as H. eauto.
Qed.

Lemma said_strip : forall n, said (strip n) = said n.
Proof.
  destruct n; try reflexivity. cbn [said strip]. rewrite !C97_group_text, map_map. reflexivity.
Qed.

Lemma said_comments : forall l, concat (map said (treeComments l)) = textOf l.
Proof.
  intros [|a [|b l]]; [reflexivity|unfold textOf; simpl; now rewrite app_nil_r|].
  unfold treeComments. set (m := a :: b :: l). cbn [map concat said]. rewrite C97_group_text, app_nil_r, map_map. f_equal.
  rewrite <- (map_id m) at 2. apply map_ext. reflexivity.
Qed.

Lemma textOf_app : forall a b, textOf (a ++ b) = textOf a ++ textOf b.
Proof. intros a b. unfold textOf. now rewrite map_app, concat_app. Qed.

Lemma said_rules : forall rs final, concat (map said (treeRules rs final)) = textOf (flat_map fst rs ++ final).
Proof.
  induction rs as [|[lead r] rs IH]; intros final; cbn [treeRules flat_map fst]; [apply said_comments|].
  rewrite map_app, concat_app, said_comments. cbn [map concat said]. rewrite IH, <- app_assoc, !textOf_app. reflexivity.
Qed.

Lemma said_root : forall r d, strip r = docTree d -> exists p l, r = NCDDL p l /\ concat (map said l) = textOf (docComments d).
Proof.
  intros r d H. destruct (strip_entries r d H) as (p & l & -> & E). exists p, l. split; auto.
  unfold docComments. rewrite <- said_rules, <- E, map_map. f_equal. apply map_ext. intros n. now rewrite said_strip.
Qed.

(** In every document the comments before the rules and after the last are kept, in
    order and with their texts. *)
Theorem C97_comments_said : forall X s e d, envOk e -> wfDoc X d -> resolved e d -> writes s (showDoc d) ->
  exists pos rules p', clean X s e (NCDDL pos rules) p' /\ concat (map said rules) = textOf (docComments d).
Proof.
  intros X s e d HE HW HR H. destruct (C16_written X s e d HE HW HR H) as (root & p' & defs & C & T & _).
  destruct (said_root root d T) as (pos & l & -> & E). exists pos, l, p'. exact (conj C E).
Qed.

(** *** Files of comments *)

Fixpoint lineItems (g : bytes) (ls : list (bytes * bytes)) : list (bytes * token * bytes * bytes) :=
  match ls with
  | [] => []
  | (i, w) :: r => (g ++ i, COMMENT, 59 :: w, w) :: lineItems [10] r
  end.

Lemma blank_newline : blank 10.
Proof. unfold blank. simpl; tauto. Qed.

Lemma lines_spaced : forall ls g, Forall lineOk ls -> allBlank g -> spaced (g ++ commentLines ls) (lineItems g ls).
Proof.
  induction ls as [|[i w] ls IH]; intros g F G; cbn [commentLines lineItems].
  - rewrite app_nil_r. now constructor.
  - inversion F as [|x y (B & D & N) F']; subst. cbn [fst snd] in *.
    replace (g ++ i ++ 59 :: w ++ 10 :: commentLines ls) with ((g ++ i) ++ (59 :: w) ++ ([10] ++ commentLines ls)) by (simpl; now rewrite <- app_assoc).
    constructor.
    + apply Forall_app; auto.
    + now constructor.
    + right. exists 10, (commentLines ls). repeat split. apply blank_newline.
    + apply IH; auto. constructor; [apply blank_newline|constructor].
Qed.

Lemma lines_fit : forall ls g first, (first = false -> In 10 g) -> Forall2 fits (lineItems g ls) (leadLx first (map snd ls)).
Proof.
  assert (R : forall ls g, Forall2 fits (lineItems g ls) (map (commentLx Any) (map snd ls))).
  { induction ls as [|[i w] ls IH]; intros g; cbn [lineItems map snd]; constructor; auto. repeat split. }
  intros [|[i w] ls] g first G; cbn [lineItems map snd leadLx]; constructor; auto.
  repeat split. cbn. destruct first; auto. apply in_or_app. auto.
Qed.

Lemma lines_parse : forall X e ls, envOk e -> Forall lineOk ls ->
  exists root p', clean X (commentLines ls) e root p' /\ strip root = docTree (mkDoc [] (map snd ls)) /\ env p' = e.
Proof.
  intros X e ls HE F.
  assert (W : wfDoc X (mkDoc [] (map snd ls))).
  { split; [constructor|]. cbn [dFinal]. clear HE. induction F as [|l ls (_ & D & N) F IH]; cbn [map]; constructor; auto. split; auto. }
  assert (R : resolved e (mkDoc [] (map snd ls))).
  { split; [|intros w []]. cbn. rewrite app_nil_r. apply HE. }
  assert (S : writes (commentLines ls) (showDoc (mkDoc [] (map snd ls)))).
  { exists (lineItems [] ls). split; [apply (lines_spaced ls []); auto; constructor|]. apply lines_fit. discriminate. }
  destruct (C16_written X _ e _ HE W R S) as (root & p' & defs & C & T & E & D). exists root, p'. split; [exact C|]. split; [exact T|].
  cbn in D. destruct defs; [|discriminate]. now rewrite app_nil_r in E.
Qed.

(** Two or more comments are one group, whatever blanks are between them, and its text
    is that of the comments. *)
Theorem C97_group : forall X e ls, envOk e -> Forall lineOk ls -> (2 <= length ls)%nat ->
  exists pos cs p', clean X (commentLines ls) e (NCDDL pos [NCommentGroup cs]) p' /\ env p' = e /\
    map cText cs = map snd ls /\ commentGroupString (Some cs) = textOf (map snd ls) /\
    forall A, cddlString A [NCommentGroup cs] = str "CDDL (" ++ textOf (map snd ls) ++ str ",)".
Proof.
  intros X e ls HE F L. destruct (lines_parse X e ls HE F) as (root & p' & C & T & E).
  destruct (strip_entries _ _ T) as (pos & l & -> & K). cbn [dRules dFinal treeRules] in K.
  destruct ls as [|[g1 w1] [|[g2 w2] ls]]; try (simpl in L; lia). cbn [map snd treeComments] in K |- *. set (ws := map snd ls) in *.
  destruct l as [|n [|? ?]]; try discriminate. destruct n; try discriminate. cbn [map strip] in K. injection K as K.
  assert (M : map cText l = w1 :: w2 :: ws).
  { transitivity (map cText (map stripC l)); [rewrite map_map; apply map_ext; now intros []|]. rewrite K. cbn [map cText treeComment]. do 2 f_equal.
    rewrite map_map. rewrite <- (map_id ws) at 2. now apply map_ext. }
  assert (G : commentGroupString (Some l) = textOf (w1 :: w2 :: ws)) by now rewrite C97_group_text, M.
  exists pos, l, p'. split; [exact C|]. split; [exact E|]. split; [exact M|]. split; [exact G|].
  intros A. unfold cddlString, entriesText, entryText. rewrite G, app_nil_r, <- app_assoc. reflexivity.
Qed.

(** A single comment is not a group. *)
Theorem C97_single : forall X e g w, envOk e -> lineOk (g, w) ->
  exists pos c p', clean X (commentLines [(g, w)]) e (NCDDL pos [NComment c]) p' /\ env p' = e /\ cText c = w.
Proof.
  intros X e g w HE F. destruct (lines_parse X e [(g, w)] HE) as (root & p' & C & T & E); [now repeat constructor; apply F|].
  destruct (strip_entries _ _ T) as (pos & l & -> & K). cbn in K.
  destruct l as [|n [|? ?]]; try discriminate. destruct n; try discriminate. cbn [map strip] in K. injection K as K.
  exists pos, c, p'. exact (conj C (conj E K)).
Qed.

(** Contrary to the comment in ast/comment.go:24 a group may have empty lines between
    its comments. *)
Theorem C97_empty_line_refuted : exists X pos cs p',
  clean X (str ";one" ++ [10; 10] ++ str ";two" ++ [10]) [] (NCDDL pos [NCommentGroup cs]) p' /\ map cText cs = [str "one"; str "two"].
Proof.
  destruct (C97_group X0 [] [([], str "one"); ([10], str "two")]) as (pos & cs & p' & C & _ & M & _).
  - split; constructor.
  - repeat constructor; try (apply good_by_ascii; vm_compute; reflexivity); try apply blank_newline; cbn; intuition discriminate.
  - auto.
  - exists X0, pos, cs, p'. split; [exact C|exact M].
Qed.

(** The text of a file does not determine it: the values of rules are not shown unless
    they are identifiers. *)
Theorem C97_file_text_refuted : exists X s s' rules rules' p p', (forall A, cddlString A rules = cddlString A rules') /\
  clean X s [] (NCDDL zeroPos rules) p /\ clean X s' [] (NCDDL zeroPos rules') p' /\ map strip rules <> map strip rules'.
Proof.
  set (s := str "a = uint"). set (s' := str "a = tstr").
  set (q := mkPos [] 0 0 0). set (i := mkIdent (mkPos [] 0 1 1) (str "a")).
  assert (K : exists p r t, clean X0 s [] (NCDDL zeroPos [NRule q i (NUintType r t) None]) p).
  { do 3 eexists. vm_compute. reflexivity. }
  assert (K' : exists p r t, clean X0 s' [] (NCDDL zeroPos [NRule q i (NTstrType r t) None]) p).
  { do 3 eexists. vm_compute. reflexivity. }
  destruct K as (p & r & t & C), K' as (p' & r' & t' & C'). exists X0, s, s'. eexists. eexists. exists p, p'.
  split; [|split; [exact C|split; [exact C'|]]]; [reflexivity|discriminate].
Qed.

(** A file with a rule between comments. *)
Example C97_ex : exists pos rules p', clean X0 (Props_Parser.lines ["; two"; "; lines"; "a = b"; ""; "; last"; "b = uint"; ";end"]%string) [] (NCDDL pos rules) p' /\
  concat (map said rules) = Props_Parser.lines [" two"; " lines"; " last"; "end"]%string /\ length rules = 5%nat /\
  cddlString (fun _ _ => str "0xc000") rules =
    str "CDDL (" ++ Props_Parser.lines [" two"; " lines"]%string ++
    str ",&{Pos:0 Name:Identifier( Name: a )  Value:Identifier( Name: b )  TrailingComment:<nil>},&{Pos:5:1 Text: last}" ++
    str ",&{Pos:0 Name:Identifier( Name: b )  Value:0xc000 TrailingComment:<nil>},&{Pos:7:1 Text:end},)".
Proof. do 3 eexists. split; [vm_compute; reflexivity|]. vm_compute. auto. Qed.
