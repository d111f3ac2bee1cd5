(** Properties C67–C69: where nodes start and end. *)
From Coq Require Import String.
From Verif Require Import Base Utf8 Token Ext Strconv StrconvSpec StrconvProofs Lexer LexSpec LexSpec2 LexSpec3 LexerProofs LexWords LexOne LexSeq LexHang
  Ast Env Diag Parser ParseSpec ParseStream ParseFacts ParseSound ParseLoop ParseTop ParseComplete ParseFileC ParseShape ParseSource
  ParseUnique ParseTree ParseTokens ParseLoose Props_Lexer Props_Parser Props_LexFull.
Open Scope string_scope.
Open Scope list_scope.
Open Scope Z_scope.

(** The position [d] bytes further on the same line. *)
Definition along (q : position) (d : Z) : position := mkPos (pFile q) (pOffset q + d) (pLine q) (pColumn q + d).

(** [written X s k text tk lit]: at byte [k] of the source the token [tk] with the
    literal [lit] is written as [text]. *)
Definition written (X : Ext) (s : bytes) (k : nat) (text : bytes) (tk : token) (lit : bytes) : Prop :=
  exists rest, skipn k s = text ++ rest /\ Lexed X tk text lit rest.

(** ** C67 *)

(** How many bytes before the end of its token, written as [text], a node of one token
    ends. (The keyword [text_literal] makes a text literal without quotes.) *)
Definition shortBy (n : node) (text : bytes) : option Z :=
  match n with
  | NIdentifier _ | NBooleanType _ _ | NTstrType _ _ | NUintType _ _ | NIntegerType _ _ | NNegativeIntegerType _ _
  | NBytesType _ _ => Some 0
  | NBooleanLiteral _ _ | NFloatLiteral _ _ _ | NComment _ => Some 1
  | NTextLiteral _ _ _ => if hd 0 text =? 34 then Some 2 else Some 0
  | NFloatType _ FLOAT _ => Some 0
  | NFloatType _ _ _ => Some 2
  | NBstrType _ _ => Some (-1)
  | NNullType _ NIL => Some (-1)
  | NNullType _ _ => Some 0
  | _ => None
  end.

Lemma str_written : forall X s l ts f, Str X l ts f -> forall k, St s l k ->
  Forall (fun t => exists k text, written X s k text (tTok t) (tLit t) /\ tPos t = posAt s k) ts.
Proof.
  intros X s l ts f H. induction H as [l t l' ts f HS HE H IH| |]; intros k HK; constructor.
  - destruct (scan_full X s l k HK) as [[E _]|(g & tk & text & lit & rest & l1 & (N1 & _ & N3) & E & _)]; [congruence|].
    rewrite E in HS. injection HS as <- _. exists (k + length g)%nat, text. cbn [tTok tLit tPos]. split; auto. exists rest. split; auto.
    rewrite <- skipn_skipn_add, N1. apply skipn_len_app.
  - destruct (scan_full X s l k HK) as [[E _]|(g & tk & text & lit & rest & l1 & _ & E & K & _)]; [congruence|].
    rewrite E in HS. injection HS as _ <-. eapply IH; eauto.
Qed.

Lemma tokens_written : forall X s ts eof, decodable s -> tokens X s ts eof ->
  Forall (fun t => exists k text, written X s k text (tTok t) (tLit t) /\ tPos t = posAt s k) ts.
Proof. intros X s ts eof D H. eapply str_written; [exact H|]. now apply newLexer_st. Qed.

(** Keywords are written as in the table. *)
Lemma lexed_table : forall X tk text lit rest, Lexed X tk text lit rest -> ~ In tk [EOF; IDENT; INT; FLOAT; COMMENT; TEXT_LITERAL; ILLEGAL] ->
  In (text, tk) keywordTable \/ In (text, tk) punctTable.
Proof.
  intros X tk text lit rest H N. destruct H; auto; try (exfalso; apply N; simpl; tauto);
    (match goal with K : kindOf _ _ |- _ => destruct K as [K|[-> _]]; [auto|exfalso; apply N; simpl; tauto] end).
Qed.

(** The width of a token's text, from its literal. *)
Lemma lexed_width : forall X tk text lit rest, Lexed X tk text lit rest ->
  zlen text = zlen lit + match tk with COMMENT => 1 | TEXT_LITERAL => if hd 0 text =? 34 then 2 else 0 | _ => 0 end.
Proof.
  intros X tk text lit rest H.
  assert (KW : forall w t, kindOf w t -> t <> COMMENT).
  { intros w t [K|[-> _]]; [|discriminate]. vm_compute in K. tab K; injection K as <- <-; discriminate. }
  assert (PW : forall w t, In (w, t) punctTable -> t <> COMMENT /\ t <> TEXT_LITERAL).
  { intros w t K. vm_compute in K. tab K; injection K as <- <-; split; discriminate. }
  assert (HB : forall tk, tk <> COMMENT -> (tk = TEXT_LITERAL -> hd 0 text <> 34) ->
    match tk with COMMENT => 1 | TEXT_LITERAL => if hd 0 text =? 34 then 2 else 0 | _ => 0 end = 0).
  { intros tk0 A B. destruct tk0; auto; [congruence|]. specialize (B eq_refl). apply Z.eqb_neq in B. now rewrite B. }
  destruct H.
  - reflexivity.
  - rewrite HB; [lia|eauto|]. intros _. cbn [hd]. unfold identStart in *. lia.
  - lia.
  - lia.
  - lia.
  - destruct (PW _ _ H). rewrite HB; [lia|auto|congruence].
  - rewrite HB; [lia|eauto|]. intros _. cbn [hd]. lia.
  - unfold zlen. cbn [length]. lia.
  - unfold zlen. cbn [length hd]. rewrite app_length, Z.eqb_refl. cbn [length]. lia.
  - unfold zlen. cbn [length hd]. rewrite app_length, Z.eqb_refl. cbn [length]. lia.
  - lia.
Qed.

Definition oneToken (X : Ext) (s : bytes) (n : node) : Prop :=
  exists k text tk lit, written X s k text tk lit /\ node_start n = Ok (posAt s k) /\
    (forall d, shortBy n text = Some d -> node_end n = Ok (along (posAt s k) (zlen text - d))) /\
    (forall p i v, n = NIntegerLiteral p i v -> parseInt text = inr v /\ node_end n = Ok (along (posAt s k) (zlen (fmtD v)))).

Lemma posTo_along : forall q d, posTo q d = along q d.
Proof. reflexivity. Qed.

Lemma kw_text : forall X s k text tk lit w, written X s k text tk lit -> 
  (forall w', In (w', tk) (keywordTable ++ punctTable) -> w' = w) -> ~ In tk [EOF; IDENT; INT; FLOAT; COMMENT; TEXT_LITERAL; ILLEGAL] -> text = w.
Proof.
  intros X s k text tk lit w (rest & _ & H) K N. apply K. apply in_or_app. eapply lexed_table; eauto.
Qed.

Ltac kw W := lazymatch goal with HW : written _ _ _ ?text _ _ |- _ =>
  replace text with (str W);
  [|symmetry; eapply kw_text; [exact HW| |let K := fresh in intros K; simpl in K; tab K; discriminate K];
    let w := fresh in let K := fresh in intros w K; vm_compute in K; tab K; try discriminate K; injection K as <-; reflexivity] end.

Lemma atom_one : forall X s t nx n tk k text, Atom X t nx n tk -> written X s k text (tTok t) (tLit t) -> tPos t = posAt s k -> oneToken X s n.
Proof.
  intros X s t nx n tk k text H HW HP. exists k, text, (tTok t), (tLit t). split; auto.
  pose proof HW as HW'. destruct HW' as (rest & _ & HL). pose proof (lexed_width _ _ _ _ _ HL) as EW.
  destruct H; cbn [tTok tLit tPos node_start node_end iPos iName rStart rEnd] in *; subst;
    (split; [reflexivity|]); (split; [intros d Hd|intros; try discriminate]).
  all: cbn [shortBy] in *.
  all: try (injection Hd as <-; rewrite posTo_along; do 2 f_equal; rewrite EW; lia).
  all: try (injection Hd as <-; rewrite posTo_along; do 2 f_equal; rewrite EW; unfold zlen; simpl; lia).
  - injection Hd as <-. kw "bool". reflexivity.
  - injection Hd as <-. rewrite posTo_along. do 2 f_equal. rewrite EW. destruct H as [-> | ->]; reflexivity.
  - injection Hd as <-. rewrite posTo_along. do 2 f_equal. rewrite EW. destruct H as [-> | ->]; reflexivity.
  - injection Hd as <-. destruct H as [-> | ->]; [kw "tstr"|kw "text"]; reflexivity.
  - rewrite posTo_along. do 2 f_equal. rewrite EW. destruct (hd 0 text =? 34); injection Hd as <-; lia.
  - rewrite posTo_along. do 2 f_equal. rewrite EW. unfold floatTok in H. simpl in H. tab H; subst t; injection Hd as <-; reflexivity.
  - injection Hd as <-. rewrite posTo_along. do 2 f_equal. rewrite EW. unfold floatTok in H. simpl in H. tab H; subst t; lia.
  - discriminate.
  - discriminate.
  - match goal with E : NIntegerLiteral _ _ _ = _ |- _ => injection E as <- <- <- end. split; [|reflexivity].
    replace text with w; auto.
    inversion HL; subst; auto.
  - injection Hd as <-. kw "nint". reflexivity.
  - injection Hd as <-. kw "bstr". reflexivity.
  - injection Hd as <-. kw "bytes". reflexivity.
  - destruct H as [-> | ->]; injection Hd as <-; [kw "null"|kw "nil"]; reflexivity.
Qed.

(** The nodes of one token. *)
Definition leaf (n : node) : Prop := (exists d, shortBy n [] = Some d) \/ exists p i v, n = NIntegerLiteral p i v.

Lemma infix_leaf : forall op l t v n tk, Infix op l t v n tk -> ~ leaf n.
Proof. intros op l t v n tk H [[d L]|(p & i & w & L)]; inversion H; subst; discriminate. Qed.

Lemma shape_one : forall X s ts T n, Shape X (fun t => In t ts) T n -> 
  Forall (fun t => exists k text, written X s k text (tTok t) (tLit t) /\ tPos t = posAt s k) ts -> leaf n -> oneToken X s n.
Proof.
  intros X s ts T n H HT L. inversion H; subst; try (exfalso; destruct L as [[d L]|(? & ? & ? & L)]; discriminate L).
  - rewrite Forall_forall in HT. destruct (HT t) as (k & text & K1 & K2); auto. eapply atom_one; eauto.
  - exfalso. eapply infix_leaf; eauto.
Qed.

(** C67. In every tree ParseFile returns, a node of one token starts at its token and
    ends on the same line a fixed number of bytes before or after the token's end; an
    integer ends after as many bytes as its value has decimal digits. *)
Theorem C67_leaves : forall X s e rules ds p' n, decodable s ->
  parseSource X (parseFuel s) s e = Ok ((Some (NCDDL zeroPos rules), ds), p') ->
  within (NCDDL zeroPos rules) n -> leaf n ->
  exists k text tk lit, written X s k text tk lit /\ node_start n = Ok (posAt s k) /\
    (forall d, shortBy n text = Some d -> node_end n = Ok (along (posAt s k) (zlen text - d))) /\
    (forall p i v, n = NIntegerLiteral p i v -> parseInt text = inr v /\ node_end n = Ok (along (posAt s k) (zlen (fmtD v)))).
Proof.
  intros X s e rules ds p' n D H HW HL.
  destruct (new_str X s D) as (ts & f & k & HS & HC & _ & HLn & _).
  pose proof (str_written X s _ _ _ HS 0 (newLexer_st s D)) as HT.
  assert (HF : (length ts <= parseFuel s)%nat) by (unfold parseFuel; lia).
  pose proof (source_loose X s e _ ts _ rules ds p' HS HF H) as HR.
  destruct (loose_shapes X (fun t => In t ts) ts rules HR) with (m := n) as [-> |[K|[(p & w & K & ->)|[K|[-> | ->]]]]]; auto;
    try (exfalso; destruct HL as [[d L]|(? & ? & ? & L)]; discriminate L); [apply Forall_forall; auto| |eapply shape_one; eauto].
  destruct K; try (exfalso; destruct HL as [[d L]|(? & ? & ? & L)]; discriminate L).
  rewrite Forall_forall in HT. destruct (HT c) as (k1 & text & K1 & K2); auto. exists k1, text, (tTok c), (tLit c). split; auto. split; [now rewrite <- K2|].
  split; [|intros; discriminate]. intros d Hd. injection Hd as <-. cbn [node_end commentOf comment_end cPos cText].
  destruct K1 as (rest & _ & K1). pose proof (lexed_width _ _ _ _ _ K1) as EW. rewrite H1 in EW. unfold comment_end, commentOf. cbn [cPos cText].
  rewrite K2, posTo_along, EW. do 2 f_equal. lia.
Qed.

(** Unsigned literals occur only as bounds and tag numbers, never as nodes. *)
Theorem C67_no_uint_nodes : forall X s e rules ds p' u, decodable s ->
  parseSource X (parseFuel s) s e = Ok ((Some (NCDDL zeroPos rules), ds), p') -> ~ within (NCDDL zeroPos rules) (NUintLiteral u).
Proof.
  intros X s e rules ds p' u D H HW.
  destruct (new_str X s D) as (ts & f & k & HS & HC & _ & HLn & _).
  pose proof (str_written X s _ _ _ HS 0 (newLexer_st s D)) as HT.
  assert (HF : (length ts <= parseFuel s)%nat) by (unfold parseFuel; lia).
  pose proof (source_loose X s e _ ts _ rules ds p' HS HF H) as HR.
  destruct (loose_shapes X (fun t => In t ts) ts rules HR) with (m := NUintLiteral u) as [E|[K|[(p & w & K & E)|[K|[E|E]]]]]; auto; try discriminate E;
    [apply Forall_forall; auto|inversion K|].
  inversion K; subst; [|match goal with I : Infix _ _ _ _ _ _ |- _ => inversion I end].
  match goal with A : Atom _ _ _ _ _ |- _ => inversion A; subst end.
  rewrite Forall_forall in HT. destruct (HT (mkTok UINT p w)) as (k1 & text & K1 & _); auto. cbn [tTok tLit] in K1.
  assert (E : text = str "uint").
  { eapply kw_text; [exact K1| |let K := fresh in intros K; simpl in K; tab K; discriminate K].
    intros w' Kw. vm_compute in Kw. tab Kw; try discriminate Kw; injection Kw as <-; reflexivity. }
  destruct K1 as (rest & _ & K1). inversion K1; subst; congruence.
Qed.

(** Each sort of leaf in one document: where it starts and where it ends. *)
Definition leafDoc : bytes := str "a = nil / bstr / float32 / 0x10 / ""ab"" / true".

Example C67_ex : decodable leafDoc /\ exists rules p', parse X0 leafDoc = Ok ((Some (NCDDL zeroPos rules), None), p') /\
  Forall (fun w => exists n, within (NCDDL zeroPos rules) n /\ leaf n /\
                     node_start n = Ok (mkPos [] (fst w) 1 (fst w + 1)) /\ node_end n = Ok (mkPos [] (snd w) 1 (snd w + 1)))
    [(4, 8); (10, 15); (17, 22); (27, 29); (34, 36); (41, 44)].
Proof.
  split; [apply good_by_ascii; vm_compute; reflexivity|].
  do 2 eexists. split; [vm_compute; reflexivity|].
  assert (R : forall r l m, In r l -> within r m -> within (NCDDL zeroPos l) m) by (intros; eapply w_child; [apply c_root; eauto|auto]).
  assert (RR : forall i v c m, within v m -> within (NRule zeroPos i v c) m) by (intros; eapply w_child; [apply c_rule|auto]).
  assert (C1 : forall p t a b, within (NTypeChoice p t a b) a) by (intros; eapply w_child; [apply c_choice1|apply w_self]).
  assert (C2 : forall p t a b m, within b m -> within (NTypeChoice p t a b) m) by (intros; eapply w_child; [apply c_choice2|auto]).
  Local Ltac item R RR C1 C2 tac := eexists; split; [eapply R; [left; reflexivity|]; apply RR; tac; first [apply C1 | apply w_self]|].
  apply Forall_cons; [item R RR C1 C2 idtac; vm_compute; split; [left; eauto|auto]|].
  apply Forall_cons; [item R RR C1 C2 ltac:(apply C2); vm_compute; split; [left; eauto|auto]|].
  apply Forall_cons; [item R RR C1 C2 ltac:(do 2 apply C2); vm_compute; split; [left; eauto|auto]|].
  apply Forall_cons; [item R RR C1 C2 ltac:(do 3 apply C2); vm_compute; split; [right; eauto|auto]|].
  apply Forall_cons; [item R RR C1 C2 ltac:(do 4 apply C2); vm_compute; split; [left; eauto|auto]|].
  apply Forall_cons; [item R RR C1 C2 ltac:(do 5 apply C2); vm_compute; split; [left; eauto|auto]|].
  apply Forall_nil.
Qed.

(** ** C68 *)

(** What is written first in an entry. *)
Fixpoint opening (n : node) : node :=
  match n with
  | NTypeChoice _ _ a _ | NBits _ _ a _ | NRange _ _ a _ | NSizeOp _ _ _ a | NComparator _ _ _ a _ => opening a
  | _ => n
  end.

(** [opensAt t r n]: as the tree of the tokens [t :: r], [n] starts at the token [t]; but a
    member with a number as key starts at the token after it, and a lost first operand
    has no start. *)
Definition opensAt (t : tokInfo) (r : list tokInfo) (n : node) : Prop :=
  match opening n with
  | NNil | NTypedNil _ => node_start n = Panic
  | NEntry _ _ _ _ => 
      tTok t = IDENT /\ node_start n = Ok (tPos t) \/
      tTok t = INT /\ exists op r', r = op :: r' /\ (tTok op = COLON \/ tTok op = ARROW_MAP) /\ node_start n = Ok (tPos op)
  | _ => node_start n = Ok (tPos t)
  end.

(** What can be the key of a member is one token. *)
Definition keyAt (t : tokInfo) (r : list tokInfo) (n : node) : Prop :=
  match n with
  | NIdentifier i => r = [] /\ tTok t = IDENT /\ iPos i = tPos t
  | NIntegerLiteral _ _ _ => r = [] /\ tTok t = INT
  | _ => True
  end.

Lemma opens_more : forall t r u n, opensAt t r n -> opensAt t (r ++ u) n.
Proof.
  intros t r u n H. unfold opensAt in *. destruct (opening n); auto.
  destruct H as [H|(H & op & r' & -> & K)]; [auto|]. right. split; auto. exists op, (r' ++ u). auto.
Qed.

Lemma start_opening : forall n, node_start n = node_start (opening n).
Proof. induction n; cbn [opening]; auto. Qed.

Lemma opensAt_eq : forall t r n, opensAt t r n <-> 
  match opening n with
  | NNil | NTypedNil _ => True
  | NEntry _ i _ _ => 
      tTok t = IDENT /\ iPos i = tPos t \/
      tTok t = INT /\ exists op r', r = op :: r' /\ (tTok op = COLON \/ tTok op = ARROW_MAP) /\ iPos i = tPos op
  | m => node_start m = Ok (tPos t)
  end.
Proof.
  intros t r n. unfold opensAt. rewrite (start_opening n). destruct (opening n) eqn:E; cbn [node_start]; try tauto.
  split; (intros [[A B]|(A & op & r' & B & C & F)]; [left; split; congruence|right; split; auto; exists op, r'; repeat split; auto; congruence]).
Qed.

Lemma infix_opens : forall op l t' v n tk t r u, Infix op l t' v n tk -> opensAt t r l -> keyAt t r l -> opensAt t (r ++ u) n.
Proof.
  intros op l t' v n tk t r u H O K. apply (opens_more t r u) in O. apply opensAt_eq in O. apply opensAt_eq.
  destruct H; cbn [opening] in *; auto.
  inversion H0; subst; cbn [opening node_start uPos] in *; auto.
Qed.

Lemma atom_opens : forall X t nx n tk, Atom X t nx n tk -> opensAt t [] n /\ keyAt t [] n /\ tTok t <> COMMENT.
Proof.
  intros X t nx n tk H. destruct H; unfold opensAt, keyAt; cbn [opening tTok tPos tLit] in *; repeat split; auto; try discriminate;
    try (destruct H; subst; discriminate); try (unfold floatTok in H; simpl in H; tab H; subst; discriminate).
Qed.

Lemma member_opens : forall t r op l i v c u, Key op l i -> tTok op = COLON \/ tTok op = ARROW_MAP -> keyAt t r l ->
  opensAt t (r ++ op :: u) (NEntry (tPos op) i v c).
Proof.
  intros t r op l i v c u HK HO K. apply opensAt_eq. cbn [opening]. destruct HK; cbn [keyAt] in K.
  - destruct K as (-> & K1 & K2). auto.
  - destruct K as (-> & K1). right. split; auto. exists op, u. auto.
Qed.

Lemma grammar_opens : forall X,
  (forall u nx n tk, Entry X u nx n tk -> exists cms t r, u = cms ++ t :: r /\ Forall commentTok cms /\ tTok t <> COMMENT /\ opensAt t r n) /\
  (forall u nx n tk, Nud X u nx n tk -> exists t r, u = t :: r /\ tTok t <> COMMENT /\ opensAt t r n /\ keyAt t r n) /\
  (forall lst l u nx n tk, Tail X lst l u nx n tk -> forall t r, opensAt t r l -> keyAt t r l -> opensAt t (r ++ u) n) /\
  (forall es c ns tk, Entries X es c ns tk -> True).
Proof.
  intros X. apply grammar_ind; intros; subst; auto.
  - destruct H1 as (t0 & r & E & N & O & K). injection E as <- <-. exists cms, t, (u ++ tl). split; [reflexivity|]. repeat split; auto.
  - destruct (atom_opens _ _ _ _ _ H) as (O & K & N). exists t, []. auto.
  - exists o, (es ++ [c]). repeat split; congruence.
  - exists o, (es ++ [c]). repeat split; congruence.
  - exists o, (es ++ [c]). repeat split; congruence.
  - exists o, e. repeat split; congruence.
  - exists o, e. repeat split; congruence.
  - exists o, e. repeat split; congruence.
  - exists o, (t :: e). repeat split; congruence.
  - exists o, (t :: e). repeat split; congruence.
  - exists o, num. repeat split; congruence.
  - exists o, (num ++ lp :: e ++ close). repeat split; congruence.
  - now rewrite app_nil_r.
  - now apply opens_more.
  - eapply infix_opens; eauto.
  - eapply member_opens; eauto.
  - specialize (H6 t0 (r ++ op :: t :: e ++ [c])).
    assert (EQ : (r ++ op :: t :: e ++ [c]) ++ tl = r ++ op :: t :: e ++ c :: tl) by (rewrite <- app_assoc; cbn [app]; rewrite <- app_assoc; reflexivity).
    rewrite EQ in H6. apply H6; [|exact I]. eapply member_opens; eauto.
  - specialize (H3 t (r ++ [op])). rewrite <- app_assoc in H3. apply H3; [reflexivity|exact I].
Qed.

(** C68. An accepted entry starts at its first token that is no comment. *)
Theorem C68_entries : forall X u nx n tk, Entry X u nx n tk ->
  exists cms t r, u = cms ++ t :: r /\ Forall commentTok cms /\ tTok t <> COMMENT /\ opensAt t r n.
Proof. intros X. exact (proj1 (grammar_opens X)). Qed.

(** So the value of each rule of an accepted document starts at the token after the
    assignment, comments apart. *)
Theorem C68_rules : forall X s e rules p' p i v c, decodable s -> clean X s e (NCDDL zeroPos rules) p' -> In (NRule p i v c) rules ->
  exists ts eof pre a cms t r post, tokens X s ts eof /\ ts = pre ++ mkTok IDENT (iPos i) (iName i) :: a :: cms ++ (t :: r) ++ post /\
    assignTok (tTok a) /\ Forall commentTok cms /\ tTok t <> COMMENT /\ opensAt t r v.
Proof.
  intros X s e rules p' p i v c D C HI.
  destruct (accepted_inv X s e _ p' D C) as (ts & eof & tk & rules0 & defs & k & E & HT & _ & _ & HF & _).
  injection E as <-. exists ts, eof.
  cut (exists pre a cms t r post, ts = pre ++ mkTok IDENT (iPos i) (iName i) :: a :: cms ++ (t :: r) ++ post /\ 
    assignTok (tTok a) /\ Forall commentTok cms /\ tTok t <> COMMENT /\ opensAt t r v).
  { intros (pre & a & cms & t & r & post & K). exists pre, a, cms, t, r, post. split; [exact HT|exact K]. }
  clear - HF HI. induction HF.
  - destruct HI.
  - destruct HI as [HI|HI]; [destruct cms; discriminate HI|].
    destruct (IHHF HI) as (pre & a & cms1 & t & r & post & -> & K). exists ((c0 :: cms) ++ pre), a, cms1, t, r, post. rewrite <- !app_assoc. auto.
  - destruct HI as [HI|HI].
    + injection HI as <- <- <- <-. destruct (C68_entries _ _ _ _ _ H0) as (cms & t1 & r & E & K). rewrite E.
      exists [], a, cms, t1, r, ts. rewrite <- !app_assoc. auto.
    + destruct (IHHF HI) as (pre & a1 & cms1 & t1 & r & post & -> & K). exists (mkTok IDENT p0 w :: a :: (t :: e) ++ pre), a1, cms1, t1, r, post.
      cbn [app]. rewrite <- !app_assoc. auto.
  - destruct HI as [HI|HI].
    + injection HI as <- <- <- <-. destruct (C68_entries _ _ _ _ _ H0) as (cms & t1 & r & E & K). rewrite E.
      exists [], a, cms, t1, r, (c0 :: sw ++ ts). rewrite <- !app_assoc. auto.
    + destruct (IHHF HI) as (pre & a1 & cms1 & t1 & r & post & -> & K). exists (mkTok IDENT p0 w :: a :: (t :: e) ++ c0 :: sw ++ pre), a1, cms1, t1, r, post.
      cbn [app]. rewrite <- !app_assoc. cbn [app]. rewrite <- !app_assoc. auto.
Qed.

(** A name, a number as key, and a lost operand. *)
Example C68_ex : exists rules p', parse X0 (str "a = ; c" ++ [10] ++ str "int / tstr b = [1: int] c = uint .lt 5") = Ok ((Some (NCDDL zeroPos rules), None), p') /\
  exists r1 r2 r3 i p m c, rules = [NRule zeroPos (mkIdent (mkPos [] 0 1 1) (str "a")) r1 None; NRule zeroPos i r2 None; NRule zeroPos c r3 None] /\
    node_start r1 = Ok (mkPos [] 8 2 1) /\ r2 = NArray p [m] /\ node_start m = Ok (mkPos [] 25 2 18) /\ node_start r3 = Panic.
Proof. do 2 eexists. split; [vm_compute; reflexivity|]. repeat eexists; reflexivity. Qed.

(** ** C69 *)

(** What has an end of its own, or none. *)
Definition terminal (n : node) : Prop :=
  leaf n \/ isNil n \/ (exists c l, n = NCommentGroup (c :: l)) \/ (exists p t lo up i, n = NNMOccurrence p t lo up i) \/
  (exists p, n = NGroup p [] \/ n = NArray p [] \/ exists t, n = NMap p t []).

(** [endsWith n m k]: what is written last in [n] is [m], and after it [k] parentheses
    of tags. *)
Inductive endsWith : node -> node -> Z -> Prop :=
| ew_here : forall n, terminal n -> endsWith n n 0
| ew_choice : forall p t a b m k, endsWith b m k -> endsWith (NTypeChoice p t a b) m k
| ew_compare : forall p t o a b m k, endsWith b m k -> endsWith (NComparator p t o a b) m k
| ew_size : forall p t a b m k, endsWith b m k -> endsWith (NSizeOp p t b a) m k
| ew_regexp : forall p t a b m k, endsWith b m k -> endsWith (NRegexp p t a b) m k
| ew_bits : forall p t a b m k, endsWith b m k -> endsWith (NBits p t a b) m k
| ew_range : forall p t a b m k, endsWith b m k -> endsWith (NRange p t a b) m k
| ew_member : forall p i b c m k, endsWith b m k -> endsWith (NEntry p i b c) m k
| ew_optional : forall p t b m k, endsWith b m k -> endsWith (NOptional p t b) m k
| ew_unwrap : forall p t b m k, endsWith b m k -> endsWith (NUnwrap p t b) m k
| ew_enum : forall p t b m k, endsWith b m k -> endsWith (NEnumeration p t b) m k
| ew_tag : forall p t a c b m k, endsWith b m k -> endsWith (NTag p t a c b) m (k + 1)
| ew_group : forall p l b m k, endsWith b m k -> endsWith (NGroup p (l ++ [b])) m k
| ew_array : forall p l b m k, endsWith b m k -> endsWith (NArray p (l ++ [b])) m k
| ew_map : forall p t l b m k, endsWith b m k -> endsWith (NMap p t (l ++ [b])) m k
| ew_rule : forall p i b c m k, endsWith b m k -> endsWith (NRule p i b c) m k.

(** Where that is. *)
Definition endOf (m : node) (k : Z) : res position :=
  match m with
  | NNil | NTypedNil _ | NNMOccurrence _ _ _ None _ => Panic
  | NNMOccurrence _ _ _ (Some u) _ => Ok (along (uPos u) (zlen (fmtD (uVal u)) + k))
  | NGroup _ _ | NArray _ _ | NMap _ _ _ => Ok (mkPos [] (k - 1) 0 k)
  | _ => match node_end m with Ok q => Ok (along q k) | r => r end
  end.

Lemma along_along : forall q a b, along (along q a) b = along q (a + b).
Proof. intros q a b. unfold along. cbn [pFile pOffset pLine pColumn]. f_equal; lia. Qed.
Lemma along_0 : forall q, along q 0 = q.
Proof. intros [f o l c]. unfold along. cbn [pFile pOffset pLine pColumn]. f_equal; lia. Qed.

Lemma last_end : forall l b, (fix le (l : list node) : res position :=
   match l with [] => Ok noPos | [x] => node_end x | _ :: r => le r end) (l ++ [b]) = node_end b.
Proof. induction l as [|x l IH]; intros b; [reflexivity|]. cbn [app]. rewrite <- (IH b). destruct (l ++ [b]) eqn:E; [destruct l; discriminate|reflexivity]. Qed.

Lemma ends_eq : forall n m k, endsWith n m k -> node_end n = endOf m k.
Proof.
  intros n m k H. induction H; cbn [node_end]; rewrite ?last_end; auto.
  - destruct H as [[[d H]|(p & i & v & ->)]|[[-> | ->]|[(c & l & ->)|[(p & t & lo & up & i & ->)|(p & [-> |[-> |[t ->]]])]]]]; auto.
    + destruct n; try discriminate H; cbn [endOf]; (destruct (node_end _) eqn:E; [rewrite along_0|..]; auto).
    + cbn [endOf node_end]. now rewrite along_0.
    + cbn [endOf node_end]. now rewrite along_0.
    + destruct up as [u|]; cbn [endOf node_end]; auto. unfold uint_end. rewrite posTo_along. f_equal. f_equal. lia.
  - rewrite IHendsWith. cbn [rbind].
    assert (HT : terminal m) by (clear - H; induction H; auto).
    destruct HT as [[[d HL]|(p0 & i & v & ->)]|[[-> | ->]|[(c0 & l & ->)|[(p0 & t0 & lo & up & i & ->)|(p0 & [-> |[-> |[t0 ->]]])]]]]; auto.
    + assert (EL : forall k, endOf m k = match node_end m with Ok q => Ok (along q k) | r => r end) by (intros; destruct m; try discriminate HL; reflexivity).
      rewrite !EL. destruct (node_end m); cbn [rbind]; auto. now rewrite posTo_along, along_along.
    + cbn [endOf node_end rbind]. rewrite posTo_along, !along_along. reflexivity.
    + cbn [endOf node_end rbind]. rewrite posTo_along, !along_along. reflexivity.
    + destruct up as [u|]; cbn [endOf node_end rbind]; auto. rewrite posTo_along, !along_along. f_equal. f_equal. lia.
    + cbn [endOf node_end rbind]. unfold posTo. cbn [pFile pOffset pLine pColumn]. f_equal. f_equal. lia.
    + cbn [endOf node_end rbind]. unfold posTo. cbn [pFile pOffset pLine pColumn]. f_equal. f_equal. lia.
    + cbn [endOf node_end rbind]. unfold posTo. cbn [pFile pOffset pLine pColumn]. f_equal. f_equal. lia.
Qed.

(** The empty list at the end of [n] has no end. *)
Definition unknownEnd (n : node) : Prop :=
  exists m k, endsWith n m k /\ exists p, m = NGroup p [] \/ m = NArray p [] \/ exists t, m = NMap p t [].

Definition off (t : tokInfo) : Z := pOffset (tPos t).
Definition ordered (u : list tokInfo) : Prop := forall a x b y c, u = a ++ x :: b ++ y :: c -> off x < off y.
Definition litOk (t : tokInfo) : Prop := (floatTok (tTok t) -> tLit t <> []) /\ (tTok t = UINT -> tLit t = str "uint").

Definition EndOk (n : node) : Prop :=
  (exists m k, endsWith n m k) /\
  forall a b, node_start n = Ok a -> node_end n = Ok b -> unknownEnd n \/ pOffset a <= pOffset b.
Definition AllEnd (n : node) : Prop := forall m, within n m -> EndOk m.
Definition startIn (u : list tokInfo) (n : node) : Prop := forall a, node_start n = Ok a -> exists t, In t u /\ a = tPos t.
Definition lowEnd (z : Z) (n : node) : Prop := forall b, node_end n = Ok b -> unknownEnd n \/ z <= pOffset b.

Lemma ordered_app : forall a b, ordered (a ++ b) -> ordered a /\ ordered b /\ forall x y, In x a -> In y b -> off x < off y.
Proof.
  intros a b H. split; [|split].
  - intros a1 x b1 y c1 E. apply (H a1 x b1 y (c1 ++ b)). rewrite E. rewrite <- !app_assoc. cbn [app]. rewrite <- app_assoc. reflexivity.
  - intros a1 x b1 y c1 E. apply (H (a ++ a1) x b1 y c1). rewrite E. now rewrite <- app_assoc.
  - intros x y Hx Hy. apply in_split in Hx as (a1 & a2 & ->). apply in_split in Hy as (b1 & b2 & ->).
    apply (H a1 x (a2 ++ b1) y b2). rewrite <- !app_assoc. cbn [app]. reflexivity.
Qed.

Lemma allEnd_intro : forall n, EndOk n -> (forall m, child n m -> AllEnd m) -> AllEnd n.
Proof. intros n H HC m HW. inversion HW; subst; auto. eapply HC; eauto. Qed.

Lemma nil_end : forall n, isNil n -> AllEnd n.
Proof.
  intros n H. apply allEnd_intro; [|intros m HC; destruct H; subst; inversion HC].
  split; [exists n, 0; apply ew_here; right; left; auto|]. intros a b HA. destruct H; subst; discriminate.
Qed.

Lemma endOk_by : forall n u z, (exists m k, endsWith n m k) -> startIn u n -> lowEnd z n -> (forall t, In t u -> off t <= z) -> EndOk n.
Proof.
  intros n u z HE HS HL HZ. split; auto. intros a b HA HB. destruct (HS _ HA) as (t & HI & ->). specialize (HZ _ HI). unfold off in HZ.
  destruct (HL _ HB) as [K|K]; [auto|]. right. lia.
Qed.

Lemma low_le : forall z z' n, lowEnd z n -> z' <= z -> lowEnd z' n.
Proof. intros z z' n H L b HB. destruct (H b HB); [auto|right; lia]. Qed.

Lemma unknown_step : forall n v, (forall m k, endsWith v m k -> exists k', endsWith n m k') -> unknownEnd v -> unknownEnd n.
Proof. intros n v H (m & k & HE & HP). destruct (H _ _ HE) as [k' HE']. exists m, k'. auto. Qed.

Lemma zlen_nonneg : forall {A} (l : list A), 0 <= zlen l.
Proof. intros. unfold zlen. lia. Qed.

Lemma atom_end : forall X t nx n tk, Atom X t nx n tk -> litOk t -> AllEnd n /\ startIn [t] n /\ lowEnd (off t) n.
Proof.
  intros X t nx n tk H HL.
  assert (S1 : startIn [t] n).
  { intros a HA. exists t. split; [left; auto|]. destruct H; cbn [node_start] in HA; injection HA as <-; reflexivity. }
  assert (LE : lowEnd (off t) n).
  { intros b HB. right. unfold off. destruct H; cbn [node_end tPos rEnd iPos iName] in *; injection HB as <-; unfold uint_end; rewrite ?posTo_along; cbn [along pOffset uPos];
      try lia; try (match goal with |- context [zlen ?w] => pose proof (zlen_nonneg w) end; lia).
    assert (w <> []) by (apply (proj1 HL); auto). destruct w; [congruence|]. unfold zlen. cbn [length]. lia. }
  split; auto. apply allEnd_intro; [|intros m HC; exfalso; eapply atom_child; eauto].
  eapply endOk_by; eauto; [|intros t0 [<-|[]]; lia].
  exists n, 0. apply ew_here. unfold terminal, leaf. destruct H; cbn [shortBy]; eauto 10;
    try (match goal with |- context [NFloatType _ ?t _] => destruct t; eauto end; fail).
  all: try (left; left; match goal with |- exists _, match ?t with _ => _ end = _ => destruct t; eauto end; fail).
  exfalso. apply H. now apply (proj2 HL).
Qed.

Lemma infix_end : forall op l t v n tk w, Infix op l t v n tk -> startIn w l -> AllEnd l -> AllEnd v -> lowEnd (off t) v -> 
  (forall x, In x w -> off x <= off t) -> AllEnd n /\ startIn w n /\ lowEnd (off t) n.
Proof.
  intros op l t v n tk w H SL AL AV LV HO.
  assert (ES : exists m k, endsWith v m k) by (apply (AV v (w_self v))). destruct ES as (m & k & ES).
  assert (SN : startIn w n).
  { destruct H; auto; intros a HA; cbn [node_start] in HA; try (apply SL; exact HA); try discriminate.
    match goal with L : Lower _ _ |- _ => inversion L; subst end; apply SL; auto. }
  assert (EN : exists m k, endsWith n m k).
  { destruct H; try (exists m, k; constructor; exact ES).
    - eexists _, 0. apply ew_here. right. right. right. left. eauto 10.
    - exists NNil, 0. apply ew_range, ew_here. right. left. left. reflexivity. }
  assert (LN : lowEnd (off t) n).
  { intros b HB. destruct H; cbn [node_end] in HB; try discriminate HB;
      try (destruct (LV _ HB) as [U|U]; [left; revert U; apply unknown_step; intros mm kk HE'; exists kk; constructor; auto|auto]; fail).
    right. destruct up as [u|]; [|discriminate]. injection HB as <-. match goal with U : Upper _ _ |- _ => inversion U; subst end.
    unfold uint_end, off. rewrite posTo_along. cbn [along pOffset uPos tPos]. pose proof (zlen_nonneg (fmtD (uVal (mkUint p INT v0)))). lia. }
  split; auto. apply allEnd_intro; [eapply endOk_by; eauto|].
  intros m' HC. destruct (infix_child _ _ _ _ _ _ _ H HC) as [->|[->|HN]]; auto using nil_end.
Qed.

Lemma bracket_end : forall (mk : list node -> node) p ns z, 
  (mk = NGroup p \/ mk = NArray p \/ exists t, mk = NMap p t) -> Forall AllEnd ns -> Forall (lowEnd z) ns -> pOffset p <= z ->
  AllEnd (mk ns) /\ lowEnd z (mk ns).
Proof.
  intros mk p ns z HM HA HL HP.
  assert (LN : (exists m k, endsWith (mk ns) m k) /\ lowEnd z (mk ns)).
  { destruct ns as [|x ns] using rev_ind.
    - assert (ES : endsWith (mk []) (mk []) 0) by (apply ew_here; right; right; right; right; exists p; destruct HM as [-> |[-> |[t ->]]]; eauto).
      split; [exists (mk []), 0; auto|]. intros b HB. left. exists (mk []), 0. split; auto. exists p. destruct HM as [-> |[-> |[t ->]]]; eauto.
    - rewrite Forall_app in HA, HL. destruct HA as [_ HA], HL as [_ HL]. inversion HA as [|? ? HX _]; subst. inversion HL as [|? ? LX _]; subst.
      destruct (HX x (w_self x)) as [(m & k & ES) _].
      assert (EW : forall m k, endsWith x m k -> endsWith (mk (ns ++ [x])) m k) by (intros; destruct HM as [-> |[-> |[t ->]]]; constructor; auto).
      split; [eauto|]. intros b HB.
      assert (EB : node_end x = Ok b) by (rewrite <- HB; destruct HM as [-> |[-> |[t ->]]]; cbn [node_end]; rewrite last_end; reflexivity).
      destruct (LX _ EB) as [U|U]; [|auto]. left. revert U. apply unknown_step. eauto. }
  destruct LN as [EN LN]. split; auto. apply allEnd_intro.
  - split; auto. intros a b HS HB. assert (ES : a = p) by (destruct HM as [-> |[-> |[t ->]]]; cbn [node_start] in HS; congruence). subst a.
    destruct (LN _ HB); [auto|right; lia].
  - intros m HC. rewrite Forall_forall in HA. apply HA. destruct HM as [-> |[-> |[t ->]]]; inversion HC; auto.
Qed.

Lemma wrap_end : forall n v w z, (forall m, child n m -> m = v) -> (forall m k, endsWith v m k -> exists k', endsWith n m k') ->
  (forall b, node_end n = Ok b -> exists b', node_end v = Ok b' /\ pOffset b' <= pOffset b) ->
  startIn w n -> AllEnd v -> lowEnd z v -> (forall x, In x w -> off x <= z) -> AllEnd n /\ startIn w n /\ lowEnd z n.
Proof.
  intros n v w z HC HE HN HS AV LV HZ.
  assert (LN : lowEnd z n).
  { intros b HB. destruct (HN _ HB) as (b' & HB' & L). destruct (LV _ HB') as [U|U]; [left; revert U; now apply unknown_step|right; lia]. }
  split; auto. apply allEnd_intro; [|intros m Hm; rewrite (HC _ Hm); auto].
  eapply endOk_by; eauto. destruct (AV v (w_self v)) as [(m & k & ES) _]. destruct (HE _ _ ES) as [k' E']. eauto.
Qed.

Lemma startIn_incl : forall u v n, startIn u n -> incl u v -> startIn v n.
Proof. intros u v n H HI a HA. destruct (H _ HA) as (t & K & E). exists t. auto. Qed.

Lemma ordered_first : forall t e, ordered (t :: e) -> forall x, In x (t :: e) -> off t <= off x.
Proof.
  intros t e H x [-> |HI]; [lia|]. apply in_split in HI as (a & b & ->). specialize (H [] t a x b eq_refl). lia.
Qed.

Lemma range_none : forall w z, AllEnd (NRange zeroPos ILLEGAL NNil NNil) /\ startIn w (NRange zeroPos ILLEGAL NNil NNil) /\ lowEnd z (NRange zeroPos ILLEGAL NNil NNil).
Proof.
  intros w z. split; [|split; intros ? ?; discriminate].
  apply allEnd_intro; [|intros m HC; inversion HC; subst; apply nil_end; left; auto].
  split; [exists NNil, 0; apply ew_range, ew_here; right; left; left; auto|]. intros; discriminate.
Qed.

Lemma key_start : forall op l i w v c, Key op l i -> startIn w l -> startIn (w ++ [op]) (NEntry (tPos op) i v c).
Proof.
  intros op l i w v c H HS a HA. cbn [node_start] in HA. injection HA as <-. destruct H.
  - destruct (HS (iPos i)) as (t & K & E); [reflexivity|]. exists t. split; auto. apply in_or_app; auto.
  - exists op. split; [apply in_or_app; right; left; auto|reflexivity].
Qed.

Lemma member_end : forall op l i w v c t z, Key op l i -> startIn w l -> AllEnd v -> lowEnd (off t) v ->
  (forall x, In x (w ++ [op]) -> off x <= off t) -> z <= off t ->
  AllEnd (NEntry (tPos op) i v c) /\ startIn (w ++ [op]) (NEntry (tPos op) i v c) /\ lowEnd z (NEntry (tPos op) i v c).
Proof.
  intros op l i w v c t z HK HS AV LV HO HZ.
  destruct (wrap_end (NEntry (tPos op) i v c) v (w ++ [op]) (off t)) as (A & B & C); auto.
  - intros m HC; inversion HC; auto.
  - intros m k HE. exists k. now constructor.
  - intros b HB. exists b. split; [exact HB|lia].
  - eapply key_start; eauto.
  - split; auto. split; auto. eapply low_le; eauto.
Qed.

Lemma occur_end : forall o t e tk lo up n, Upper t up -> uPos lo = tPos o -> AllEnd n -> ordered (o :: t :: e) ->
  AllEnd (NNMOccurrence (tPos o) tk (Some lo) up n) /\ startIn [o] (NNMOccurrence (tPos o) tk (Some lo) up n) /\
  lowEnd (off o) (NNMOccurrence (tPos o) tk (Some lo) up n).
Proof.
  intros o t e tk lo up n HU HO HA HS. specialize (HS [] o [] t e eq_refl).
  assert (S : startIn [o] (NNMOccurrence (tPos o) tk (Some lo) up n)).
  { intros a H. injection H as <-. exists o. split; [left; auto|auto]. }
  assert (L : lowEnd (off o) (NNMOccurrence (tPos o) tk (Some lo) up n)).
  { intros b HB. right. cbn [node_end] in HB. destruct up as [u|]; [|discriminate]. injection HB as <-. inversion HU; subst.
    unfold uint_end. rewrite posTo_along. cbn [along pOffset uPos uVal]. unfold off in *. cbn [tPos] in HS. pose proof (zlen_nonneg (fmtD v)). lia. }
  split; auto. apply allEnd_intro; [|intros m HC; inversion HC; subst; auto].
  eapply endOk_by; eauto; [|intros x [<-|[]]; lia]. eexists _, 0. apply ew_here. right. right. right. left. eauto 10.
Qed.

Lemma grammar_end : forall X,
  (forall u nx n tk, Entry X u nx n tk -> ordered u -> Forall litOk u -> forall z, (forall x, In x u -> z <= off x) ->
     AllEnd n /\ startIn u n /\ lowEnd z n) /\
  (forall u nx n tk, Nud X u nx n tk -> ordered u -> Forall litOk u -> forall z, (forall x, In x u -> z <= off x) ->
     AllEnd n /\ startIn u n /\ lowEnd z n) /\
  (forall lst l u nx n tk, Tail X lst l u nx n tk -> forall w z, ordered (w ++ u) -> Forall litOk u -> (forall x, In x (w ++ u) -> z <= off x) ->
     AllEnd l -> startIn w l -> lowEnd z l -> AllEnd n /\ startIn (w ++ u) n /\ lowEnd z n) /\
  (forall es c ns tk, Entries X es c ns tk -> ordered es -> Forall litOk es -> forall z, (forall x, In x es -> z <= off x) ->
     Forall AllEnd ns /\ Forall (lowEnd z) ns).
Proof.
  intros X. apply grammar_ind; intros; subst.
  - (* entry *)
    destruct (ordered_app _ _ H4) as (_ & O1 & _). destruct (ordered_app _ _ O1) as (O2 & _ & _).
    apply Forall_app in H5 as [_ L1]. apply Forall_app in L1 as [L2 L3].
    assert (Z1 : forall x, In x ((t :: u) ++ tl) -> z <= off x) by (intros; apply H6; apply in_or_app; auto).
    destruct (H1 O2 L2 z) as (A1 & S1 & E1); [intros; apply Z1, in_or_app; auto|].
    destruct (H3 (t :: u) z) as (A2 & S2 & E2); auto.
    split; auto. split; auto. eapply startIn_incl; eauto. intros x Hx. apply in_or_app; auto.
  - (* atom *)
    inversion H1; subst. destruct (atom_end _ _ _ _ _ H) as (A & S & E); auto. split; auto. split; auto. eapply low_le; eauto. apply H2. left; auto.
  - (* group *)
    inversion H4 as [|? ? _ L1]; subst. apply Forall_app in L1 as [L1 _].
    destruct (ordered_app [o] _ H3) as (_ & O1 & O2). destruct (ordered_app _ _ O1) as (O3 & _ & _).
    destruct (H2 O3 L1 (off o)) as (A & E); [intros x Hx; assert (off o < off x) by (apply O2; [left; auto|apply in_or_app; auto]); lia|].
    assert (FA : Forall AllEnd (filter isGroupEntry ns)) by (apply incl_Forall with (2 := A); intros x Hx; now apply filter_In in Hx).
    assert (FE : Forall (lowEnd (off o)) (filter isGroupEntry ns)) by (apply incl_Forall with (2 := E); intros x Hx; now apply filter_In in Hx).
    destruct (bracket_end (NGroup (tPos o)) (tPos o) _ (off o) (or_introl eq_refl) FA FE ltac:(unfold off; lia)) as (B1 & B2).
    split; auto. split; [|eapply low_le; eauto; apply H5; left; auto]. intros a HA. injection HA as <-. exists o. split; auto. left; auto.
  - (* array *)
    inversion H4 as [|? ? _ L1]; subst. apply Forall_app in L1 as [L1 _].
    destruct (ordered_app [o] _ H3) as (_ & O1 & O2). destruct (ordered_app _ _ O1) as (O3 & _ & _).
    destruct (H2 O3 L1 (off o)) as (A & E); [intros x Hx; assert (off o < off x) by (apply O2; [left; auto|apply in_or_app; auto]); lia|].
    assert (FA : Forall AllEnd (filter isGroupEntry ns)) by (apply incl_Forall with (2 := A); intros x Hx; now apply filter_In in Hx).
    assert (FE : Forall (lowEnd (off o)) (filter isGroupEntry ns)) by (apply incl_Forall with (2 := E); intros x Hx; now apply filter_In in Hx).
    destruct (bracket_end (NArray (tPos o)) (tPos o) _ (off o) (or_intror (or_introl eq_refl)) FA FE ltac:(unfold off; lia)) as (B1 & B2).
    split; auto. split; [|eapply low_le; eauto; apply H5; left; auto]. intros a HA. injection HA as <-. exists o. split; auto. left; auto.
  - (* map *)
    inversion H4 as [|? ? _ L1]; subst. apply Forall_app in L1 as [L1 _].
    destruct (ordered_app [o] _ H3) as (_ & O1 & O2). destruct (ordered_app _ _ O1) as (O3 & _ & _).
    destruct (H2 O3 L1 (off o)) as (FA & FE); [intros x Hx; assert (off o < off x) by (apply O2; [left; auto|apply in_or_app; auto]); lia|].
    destruct (bracket_end (NMap (tPos o) ILLEGAL) (tPos o) _ (off o) (or_intror (or_intror (ex_intro _ _ eq_refl))) FA FE ltac:(unfold off; lia)) as (B1 & B2).
    split; auto. split; [|eapply low_le; eauto; apply H5; left; auto]. intros a HA. injection HA as <-. exists o. split; auto. left; auto.
  - (* optional *)
    inversion H3 as [|? ? _ L1]; subst. destruct (ordered_app [o] _ H2) as (_ & O1 & O2).
    destruct (H1 O1 L1 (off o)) as (A & S & E); [intros x Hx; assert (off o < off x) by (apply O2; [left; auto|auto]); lia|].
    destruct (wrap_end (NOptional (tPos o) OPTIONAL n) n [o] (off o)) as (B1 & B2 & B3); auto.
    { intros m HC; inversion HC; auto. } { intros m k HE; exists k; now constructor. } { intros b HB; exists b; split; [exact HB|lia]. }
    { intros a HA. injection HA as <-. exists o. split; auto. left; auto. } { intros x [<-|[]]; lia. }
    split; auto. split; [|eapply low_le; eauto; apply H4; left; auto]. eapply startIn_incl; eauto. intros x [<-|[]]; left; auto.
  - (* unwrap *)
    inversion H3 as [|? ? _ L1]; subst. destruct (ordered_app [o] _ H2) as (_ & O1 & O2).
    destruct (H1 O1 L1 (off o)) as (A & S & E); [intros x Hx; assert (off o < off x) by (apply O2; [left; auto|auto]); lia|].
    destruct (wrap_end (NUnwrap (tPos o) UNWRAP n) n [o] (off o)) as (B1 & B2 & B3); auto.
    { intros m HC; inversion HC; auto. } { intros m k HE; exists k; now constructor. } { intros b HB; exists b; split; [exact HB|lia]. }
    { intros a HA. injection HA as <-. exists o. split; auto. left; auto. } { intros x [<-|[]]; lia. }
    split; auto. split; [|eapply low_le; eauto; apply H4; left; auto]. eapply startIn_incl; eauto. intros x [<-|[]]; left; auto.
  - (* enumeration *)
    inversion H3 as [|? ? _ L1]; subst. destruct (ordered_app [o] _ H2) as (_ & O1 & O2).
    destruct (H1 O1 L1 (off o)) as (A & S & E); [intros x Hx; assert (off o < off x) by (apply O2; [left; auto|auto]); lia|].
    destruct (wrap_end (NEnumeration (tPos o) AMPERSAND n) n [o] (off o)) as (B1 & B2 & B3); auto.
    { intros m HC; inversion HC; auto. } { intros m k HE; exists k; now constructor. } { intros b HB; exists b; split; [exact HB|lia]. }
    { intros a HA. injection HA as <-. exists o. split; auto. left; auto. } { intros x [<-|[]]; lia. }
    split; auto. split; [|eapply low_le; eauto; apply H4; left; auto]. eapply startIn_incl; eauto. intros x [<-|[]]; left; auto.
  - (* star *)
    inversion H4 as [|? ? _ L1]; subst. destruct (ordered_app [o] _ H3) as (_ & O1 & O2).
    destruct (H2 O1 L1 (off t)) as (A & S & E); [now apply ordered_first|].
    destruct (occur_end o t e ZERO_OR_MORE (mkUint (tPos o) UINT 0) up n) as (B1 & B2 & B3); auto.
    split; auto. split; [|eapply low_le; eauto; apply H5; left; auto]. eapply startIn_incl; eauto. intros x [<-|[]]; left; auto.
  - (* plus *)
    inversion H4 as [|? ? _ L1]; subst. destruct (ordered_app [o] _ H3) as (_ & O1 & O2).
    destruct (H2 O1 L1 (off t)) as (A & S & E); [now apply ordered_first|].
    destruct (occur_end o t e ONE_OR_MORE (mkUint (tPos o) UINT 1) up n) as (B1 & B2 & B3); auto.
    split; auto. split; [|eapply low_le; eauto; apply H5; left; auto]. eapply startIn_incl; eauto. intros x [<-|[]]; left; auto.
  - (* tag *)
    split; [|split].
    + apply allEnd_intro; [|intros m HC; inversion HC; subst; apply nil_end; left; auto].
      split; [exists NNil, (0 + 1); apply ew_tag, ew_here; right; left; left; auto|]. intros; discriminate.
    + intros a HA. injection HA as <-. exists o. split; auto. left; auto.
    + intros b HB. discriminate.
  - (* tagged *)
    inversion H7 as [|? ? _ L1]; subst. apply Forall_app in L1 as [_ L1]. inversion L1 as [|? ? _ L2]; subst. apply Forall_app in L2 as [L2 _].
    destruct (ordered_app [o] _ H6) as (_ & O1 & O2). destruct (ordered_app _ _ O1) as (_ & O3 & _). destruct (ordered_app [lp] _ O3) as (_ & O4 & _). destruct (ordered_app _ _ O4) as (O5 & _ & _).
    destruct (H4 O5 L2 (off o)) as (A & S & E).
    { intros x Hx; assert (off o < off x) by (apply O2; [left; auto|apply in_or_app; right; right; apply in_or_app; auto]); lia. }
    destruct (wrap_end (NTag (tPos o) HASH major number n) n [o] (off o)) as (B1 & B2 & B3); auto.
    { intros m HC; inversion HC; auto. } { intros m k HE; exists (k + 1); now constructor. }
    { intros b HB. cbn [node_end] in HB. destruct (node_end n) as [q| | |]; try discriminate HB. injection HB as <-. exists q. split; auto. cbn [posTo pOffset]. lia. }
    { intros a HA. injection HA as <-. exists o. split; auto. left; auto. } { intros x [<-|[]]; lia. }
    split; auto. split; [|eapply low_le; eauto; apply H8; left; auto]. eapply startIn_incl; eauto. intros x [<-|[]]; left; auto.
  - rewrite app_nil_r in *. auto.
  - split; auto. split; auto. eapply startIn_incl; eauto. intros x Hx; apply in_or_app; auto.
  - (* infix *)
    inversion H4 as [|? ? _ L1]; subst. destruct (ordered_app _ _ H3) as (_ & O1 & O2). destruct (ordered_app [op] _ O1) as (_ & O3 & O4).
    destruct (H1 O3 L1 (off t)) as (A & S & E); [now apply ordered_first|].
    destruct (infix_end _ _ _ _ _ _ w H2) as (B1 & B2 & B3); auto.
    { intros x Hx. assert (off x < off t) by (apply O2; [auto|right; left; auto]). lia. }
    split; auto. split; [eapply startIn_incl; eauto; intros x Hx; apply in_or_app; auto|].
    eapply low_le; eauto. apply H5. apply in_or_app. right. right. left. auto.
  - (* member *)
    inversion H6 as [|? ? _ L1]; subst. destruct (ordered_app _ _ H5) as (_ & O1 & O2). destruct (ordered_app [op] _ O1) as (_ & O3 & O4).
    destruct (H3 O3 L1 (off t)) as (A & S & E); [now apply ordered_first|].
    destruct (member_end op l i w v None t z) as (B1 & B2 & B3); auto.
    { intros x Hx. apply in_app_or in Hx as [Hx|[<-|[]]].
      - assert (off x < off t) by (apply O2; [auto|right; left; auto]). lia.
      - assert (off op < off t) by (apply O4; left; auto). lia. }
    { apply H7. apply in_or_app. right. right. left. auto. }
    split; auto. split; auto. eapply startIn_incl; eauto. intros x Hx. apply in_app_or in Hx as [Hx|[<-|[]]]; apply in_or_app; [auto|right; left; auto].
  - (* member with comment *)
    assert (EQ : w ++ op :: t :: e ++ c :: tl = (w ++ op :: t :: e ++ [c]) ++ tl) by (rewrite <- app_assoc; cbn [app]; rewrite <- app_assoc; reflexivity).
    inversion H8 as [|? ? _ L0]; subst. rewrite app_comm_cons in L0. apply Forall_app in L0 as [L1 L0]. inversion L0 as [|? ? _ L2]; subst.
    destruct (ordered_app _ _ H7) as (_ & O1 & O2). destruct (ordered_app [op] _ O1) as (_ & O3 & O4). 
    rewrite app_comm_cons in O3. destruct (ordered_app _ _ O3) as (O5 & _ & _).
    destruct (H3 O5 L1 (off t)) as (A & S & E); [now apply ordered_first|].
    destruct (member_end op l i w v (Some (commentOf c)) t z) as (B1 & B2 & B3); auto.
    { intros x Hx. apply in_app_or in Hx as [Hx|[<-|[]]].
      - assert (off x < off t) by (apply O2; [auto|right; left; auto]). lia.
      - assert (off op < off t) by (apply O4; left; auto). lia. }
    { apply H9. apply in_or_app. right. right. left. auto. }
    rewrite EQ. apply H6; auto; [now rewrite <- EQ|now rewrite <- EQ|].
    eapply startIn_incl; eauto. intros x Hx. apply in_app_or in Hx as [Hx|[<-|[]]]; apply in_or_app; [auto|right; left; auto].
  - destruct (range_none (w ++ [op]) z) as (A & S & E). specialize (H3 (w ++ [op]) z). rewrite <- app_assoc in H3. cbn [app] in H3.
    inversion H5; subst. apply H3; auto.
  - split; constructor.
  - destruct (ordered_app _ _ H3) as (O1 & O2 & _). apply Forall_app in H4 as [L1 L2].
    destruct (H0 O1 L1 z) as (A & S & E); [intros; apply H5, in_or_app; auto|].
    destruct (H2 O2 L2 z) as (A2 & E2); [intros; apply H5, in_or_app; auto|]. split; constructor; auto.
Qed.

Lemma covers_ordered : forall s k ts k', covers s k ts k' -> Forall (fun t => Z.of_nat k <= off t) ts /\ (Forall (fun t => tTok t <> EOF) ts -> ordered ts).
Proof.
  intros s k ts k' H. induction H as [|k g text rest t ts k' E B T P C IH].
  - split; [constructor|]. intros _ a x b y c E. destruct a; discriminate.
  - assert (OT : off t = Z.of_nat (k + length g)) by (unfold off; rewrite P; reflexivity).
    destruct IH as [IH1 IH2]. split.
    + constructor; [lia|]. eapply Forall_impl; [|exact IH1]. cbn beta. intros; lia.
    + intros NE. inversion NE as [|? ? NE1 NE2]; subst. intros a x b y c EQ. destruct a as [|a0 a].
      * injection EQ as <- ->. rewrite Forall_app in IH1. destruct IH1 as [_ IH1]. inversion IH1 as [|? ? L _]; subst.
        assert (text <> []) by (destruct T as [(T & _)|(_ & T & _)]; congruence).
        destruct text; [congruence|]. cbn [length] in L. lia.
      * injection EQ as <- ->. eapply IH2; eauto.
Qed.

Lemma comments_end : forall c cms, ordered (c :: cms) -> AllEnd (commentNode (c :: cms)).
Proof.
  intros c cms HO. apply allEnd_intro; [|intros m HC; destruct cms; inversion HC].
  destruct cms as [|d cms].
  - split; [exists (commentNode [c]), 0; apply ew_here; left; left; cbn; eauto|].
    intros a b HA HB. right. cbn in HA, HB. injection HA as <-. injection HB as <-. cbn. pose proof (zlen_nonneg (tLit c)). lia.
  - split; [eexists _, 0; apply ew_here; right; right; left; cbn; eauto|].
    intros a b HA HB. right. unfold commentNode in *. cbn [node_start node_end map] in *. injection HA as <-. injection HB as <-.
    assert (EL : exists x, In x (d :: cms) /\ last (commentOf d :: map commentOf cms) (commentOf c) = commentOf x).
    { clear. revert d c. induction cms as [|y l IH]; intros d c; [exists d; split; [left; auto|reflexivity]|].
      destruct (IH y c) as (x & Hx & E). exists x. split; [right; auto|]. cbn [map] in *. cbn [last] in *. exact E. }
    destruct EL as (x & Hx & EL). cbn [last] in EL. rewrite EL. clear EL. pose proof (ordered_first _ _ HO x (or_intror Hx)) as L. unfold comment_end. rewrite posTo_along.
    cbn [along pOffset commentOf cPos cText]. unfold off in L. pose proof (zlen_nonneg (tLit x)). lia.
Qed.

Lemma rule_end : forall X p w a t e nx v tk c, ordered (mkTok IDENT p w :: a :: t :: e) -> Forall litOk (t :: e) -> Entry X (t :: e) nx v tk -> 
  AllEnd (NRule zeroPos (mkIdent p w) v c).
Proof.
  intros X p w a t e nx v tk c HO HL HE.
  destruct (ordered_app [mkTok IDENT p w; a] _ HO) as (_ & O1 & O2).
  destruct (proj1 (grammar_end X) _ _ _ _ HE O1 HL (off t)) as (A & _ & E); [now apply ordered_first|].
  destruct (wrap_end (NRule zeroPos (mkIdent p w) v c) v [mkTok IDENT p w] (off t)) as (B & _ & _); auto.
  - intros m HC; inversion HC; auto.
  - intros m k HE'; exists k; now constructor.
  - intros b HB; exists b; split; [exact HB|lia].
  - intros x HA. injection HA as <-. exists (mkTok IDENT p w). split; [left; auto|reflexivity].
  - intros x [<-|[]]. assert (off (mkTok IDENT p w) < off t) by (apply O2; left; auto). lia.
Qed.

Lemma file_end : forall X ts eof rules tk defs, File X ts eof rules tk defs -> ordered ts -> Forall litOk ts -> Forall AllEnd rules.
Proof.
  intros X ts eof rules tk defs H. induction H; intros HO HL; constructor.
  - apply comments_end. now destruct (ordered_app _ _ HO) as (O & _ & _).
  - destruct (ordered_app _ _ HO) as (_ & O & _). apply Forall_app in HL. tauto.
  - rewrite !app_comm_cons in HO. destruct (ordered_app _ _ HO) as (O & _ & _). inversion HL as [|? ? _ L1]; subst. inversion L1 as [|? ? _ L2]; subst.
    rewrite app_comm_cons in L2. apply Forall_app in L2 as [L2 _]. eapply rule_end; eauto.
  - rewrite !app_comm_cons in HO. destruct (ordered_app _ _ HO) as (_ & O & _). inversion HL as [|? ? _ L1]; subst. inversion L1 as [|? ? _ L2]; subst.
    rewrite app_comm_cons in L2. apply Forall_app in L2 as [_ L2]. auto.
  - rewrite !app_comm_cons in HO. destruct (ordered_app _ _ HO) as (O & _ & _). inversion HL as [|? ? _ L1]; subst. inversion L1 as [|? ? _ L2]; subst.
    rewrite app_comm_cons in L2. apply Forall_app in L2 as [L2 _]. eapply rule_end; eauto.
  - rewrite !app_comm_cons in HO. destruct (ordered_app _ _ HO) as (_ & O & _). destruct (ordered_app (c :: sw) ts O) as (_ & O' & _).
    inversion HL as [|? ? _ L1]; subst. inversion L1 as [|? ? _ L2]; subst.
    rewrite app_comm_cons in L2. apply Forall_app in L2 as [_ L2]. inversion L2 as [|? ? _ L3]; subst. apply Forall_app in L3 as [_ L3]. auto.
Qed.

Lemma written_lit : forall X s t, (exists k text, written X s k text (tTok t) (tLit t) /\ tPos t = posAt s k) -> litOk t.
Proof.
  intros X s [tk p lit] (k & text & HW & _). cbn [tTok tLit] in HW. split; cbn [tTok tLit].
  - intros HF. destruct HW as (rest & _ & HL). unfold floatTok in HF. inversion HL; subst; try discriminate;
      try (exfalso; simpl in HF; tab HF; discriminate HF).
    intros ->. match goal with K : In _ punctTable |- _ => vm_compute in K; tab K; discriminate K end.
  - intros ->. assert (E : text = str "uint").
    { eapply kw_text; [exact HW| |let K := fresh in intros K; simpl in K; tab K; discriminate K].
      intros w' Kw. vm_compute in Kw. tab Kw; try discriminate Kw; injection Kw as <-; reflexivity. }
    destruct HW as (rest & _ & HL). inversion HL; subst; auto.
Qed.

Lemma accepted_end : forall X s e rules p', decodable s -> clean X s e (NCDDL zeroPos rules) p' -> Forall AllEnd rules.
Proof.
  intros X s e rules p' D C.
  destruct (accepted_inv X s e _ p' D C) as (ts & eof & tk & rules0 & defs & k & E & HT & HC & _ & HF & _). injection E as <-.
  eapply file_end; eauto.
  - apply (covers_ordered _ _ _ _ HC). clear - HT. remember (FEof eof) as f. clear Heqf. induction HT; constructor; auto.
  - eapply Forall_impl; [|exact (tokens_written X s ts eof D HT)]. intros t. apply written_lit.
Qed.

(** C69. In an accepted document every node, from the rules down, has a last part, and its
    End is that part's. It crashes if the part is missing or an occurrence without upper
    bound, and is before the source if it is an empty list. *)
Theorem C69_ends : forall X s e rules p' r n, decodable s -> clean X s e (NCDDL zeroPos rules) p' -> In r rules -> within r n ->
  exists m k, endsWith n m k /\ node_end n = endOf m k.
Proof.
  intros X s e rules p' r n D C HI HW. pose proof (accepted_end _ _ _ _ _ D C) as HA. rewrite Forall_forall in HA.
  destruct (HA _ HI n HW) as [(m & k & HE) _]. exists m, k. split; auto. now apply ends_eq.
Qed.

(** A node with a start and an end does not end before it starts. *)
Theorem C69_order : forall X s e rules p' r n a b, decodable s -> clean X s e (NCDDL zeroPos rules) p' -> In r rules -> within r n ->
  node_start n = Ok a -> node_end n = Ok b -> unknownEnd n \/ pOffset a <= pOffset b.
Proof.
  intros X s e rules p' r n a b D C HI HW. pose proof (accepted_end _ _ _ _ _ D C) as HA. rewrite Forall_forall in HA.
  destruct (HA _ HI n HW) as [_ K]. apply K.
Qed.

(** The root ends where its last rule does. *)
Theorem C69_root : forall rules r p, node_end (NCDDL p (rules ++ [r])) = node_end r.
Proof. intros. apply last_end. Qed.

(** An entry with an end, one whose End crashes and one that ends before the source. *)
Example C69_ex : exists rules p', parse X0 (str "a = [b: int / tstr] c = [* int] d = #6.1([])") = Ok ((Some (NCDDL zeroPos rules), None), p') /\
  map node_end rules = [Ok (mkPos [] 18 1 19); Panic; Ok (mkPos [] 0 0 1)].
Proof. do 2 eexists. split; [vm_compute; reflexivity|vm_compute; reflexivity]. Qed.
