(** Properties C21, C22, C24-C27, C46: the tree and the diagnostics. *)
From Coq Require Import String.
From Verif Require Import Base Utf8 Token Ext Strconv StrconvSpec StrconvProofs Lexer LexSpec LexSpec2 LexerProofs LexOne LexSeq
  Ast Env Diag Parser ParseSpec ParseStream ParseFacts ParseSound ParseLoop ParseTop ParseComplete ParseFileC ParseShape ParseSource
  ParseUnique ParseTree ParseLoose Props_Lexer Props_Parser.
Open Scope string_scope.
Open Scope list_scope.
Open Scope Z_scope.

(** ** C46 *)

Theorem C46_uint_numerals : forall s v, parseUint s = inr v <-> Numeral s v /\ v < 2 ^ 64.
Proof. exact parseUint_iff. Qed.

Theorem C46_int_numerals : forall s v, hd 0 s <> 43 -> hd 0 s <> 45 ->
  (parseInt s = inr v <-> Numeral s v /\ v < 2 ^ 63).
Proof. exact parseInt_iff. Qed.

Theorem C46_round_trip : forall n, - 2 ^ 63 <= n < 2 ^ 63 -> parseInt (fmtD n) = inr n.
Proof. exact fmt_parseInt. Qed.

Theorem C46_round_trip_uint : forall n, 0 <= n < 2 ^ 64 -> parseUint (fmtD n) = inr n.
Proof. exact fmt_parseUint. Qed.

Example C46_ex : fmtD (- 9223372036854775808) = str "-9223372036854775808" /\ parseUint (str "0xFF_FF") = inr 65535 /\
  parseUint (str "017") = inr 15 /\ parseUint (str "18446744073709551616") = inl ErrRange /\ parseUint (str "1__0") = inl ErrSyntax.
Proof. vm_compute. auto. Qed.

(** ** C21 *)

(** Every integer literal of a tree is an INT token of the source at that place,
    and its value is that of the numeral, below 2^63. *)
Theorem C21_integer_literals : forall X s e root p' p k v, decodable s -> clean X s e root p' ->
  within root (NIntegerLiteral p k v) ->
  exists ts eof w, tokens X s ts eof /\ In (mkTok INT p w) ts /\ k = INT /\ Numeral w v /\ 0 <= v < 2 ^ 63.
Proof.
  intros X s e root p' p k v D C HW. destruct (accepted_inv X s e root p' D C)
    as (ts & eof & tk & rules & defs & k' & -> & HS & HC & HE & HF & EE & ET & ND & HA).
  destruct (file_shapes X (fun t => In t ts) (fun _ => True) _ _ _ _ _ HF) with (m := NIntegerLiteral p k v)
    as [K|[K|[K|[K|K]]]]; auto; try discriminate; try (inversion K; fail); try (apply Forall_forall; auto; fail).
  inversion K as [t nx n tk0 HAt HNx HP HTk| op l t v0 n tk0 HI | | | | | | | | | | | |]; subst; [|inversion HI].
  inversion HAt; subst. exists ts, (mkTok EOF (posAt s (length s)) []), w. split; auto. split; auto. split; auto.
  pose proof (source_tokens _ _ _ _ D HS) as HL. rewrite Forall_forall in HL.
  destruct (HL _ HP) as (suf & text & er & HG & HL1). simpl in HL1.
  destruct (lexOne_int _ _ _ _ _ HG HL1) as [N1 N2].
  match goal with H : parseInt _ = inr _ |- _ => apply parseInt_iff in H as [HN HV]; auto end. split; auto. split; auto. eapply value_pos; eauto.
Qed.

(** A numeral in value position that is not such a number is reported, not
    truncated: an entry that starts with it yields a diagnostic there. *)
Theorem C21_out_of_range_reported : forall X fuel prec p, curr p = INT -> currLit p <> str "int" ->
  hd 0 (currLit p) <> 43 -> hd 0 (currLit p) <> 45 -> ~ (exists v, Numeral (currLit p) v /\ v < 2 ^ 63) ->
  exists n d, parseEntry X (S fuel) prec p = Ok (n, Some d, p) /\ dStart d = pos p /\ dMsg d = MExpectedAt INT (pLine (pos p)) (pColumn (pos p)).
Proof.
  intros X fuel prec p HC HL H1 H2 HN.
  assert (E1 : skipComments X fuel p = Ok p) by (unfold skipComments; rewrite HC; reflexivity).
  assert (E2 : chooseNud p = Some NuIntegerType) by (unfold chooseNud; rewrite HC; reflexivity).
  simpl parseEntry. rewrite E1. cbn [rbind]. rewrite E2. cbn [runNud]. unfold parseIntegerType, parseIntegerLiteral.
  rewrite HC. assert (E3 : isLiteral INT (currLit p) = true) by (apply C13_isLiteral; right; split; auto). rewrite E3.
  destruct (parseInt (currLit p)) as [err0|v] eqn:E.
  - cbn [rbind]. do 2 eexists. split; [reflexivity|]. split; reflexivity.
  - exfalso. apply HN. exists v. apply parseInt_iff in E; auto.
Qed.

Example C21_ex : exists root p' p, clean X0 sampleDoc [] root p' /\ within root (NIntegerLiteral p INT 2).
Proof.
  do 3 eexists. split; [vm_compute; reflexivity|].
  eapply w_child; [apply c_root; do 2 right; left; reflexivity|]. eapply w_child; [apply c_rule|].
  eapply w_child; [apply c_group; right; left; reflexivity|]. eapply w_child; [apply c_entry|]. apply w_self.
Qed.
Example C21_ex_big : exists root d p', parse X0 (str "x = 9223372036854775808") = Ok ((root, Some [d]), p') /\ pColumn (dStart d) = 5.
Proof. do 3 eexists. split; vm_compute; reflexivity. Qed.

(** ** C22 *)

Definition intLit (n : node) : Prop := exists p k v, n = NIntegerLiteral p k v.
Definition floatLit (n : node) : Prop := exists r k v, n = NFloatLiteral r k v.

(** A range whose lower bound is a number literal has an upper bound that is a
    literal of that kind, or a name bound to one, or (any other expression) none. *)
Theorem C22_range_bounds : forall X s e root p' p k lo hi, decodable s -> envOk e -> clean X s e root p' ->
  within root (NRange p k lo hi) ->
  (intLit lo -> intLit hi \/ hi = NNil \/ exists i n, hi = NIdentifier i /\ boundTo (env p') (iName i) n /\ intLit n) /\
  (floatLit lo -> floatLit hi \/ hi = NNil \/ exists i n, hi = NIdentifier i /\ boundTo (env p') (iName i) n /\ floatLit n) /\
  (forall i j, lo = NIdentifier i -> hi = NIdentifier j ->
     (~ bound (env p') (iName i) /\ ~ bound (env p') (iName j)) \/
     exists a b, boundTo (env p') (iName i) a /\ boundTo (env p') (iName j) b /\ typeOf a = typeOf b).
Proof.
  intros X s e root p' p k lo hi D [ND RE] C HW. destruct (accepted_inv X s e root p' D C)
    as (ts & eof & tk & rules & defs & k' & -> & HS & HC & HE & HF & EE & ET & NDD & HA).
  assert (RE' : realEnv (e ++ defs)) by (apply app_real; auto; eapply file_real; eauto).
  apply checks_iff in HA; auto. rewrite EE. unfold intLit, floatLit.
  destruct (file_shapes X (fun t => True) (CheckOk (e ++ defs)) _ _ _ _ _ HF) with (m := NRange p k lo hi)
    as [K|[K|[K|[K|K]]]]; auto; try discriminate; try (inversion K; fail); try (apply Forall_forall; auto; fail).
  inversion K as [t nx n tk0 HAt HNx HP HTk| op l t v0 n tk0 HI HP1 HP2 HTk | | | | | | | | | | | |]; subst.
  - inversion HAt.
  - inversion HI; subst.
    + inversion HTk as [|? ? HT1 _]; subst. split; [intros (? & ? & ? & Q); discriminate|]. split; [intros (? & ? & ? & Q); discriminate|].
      intros i0 j Q1 Q2. inversion Q1; subst. inversion HT1; subst; eauto 6.
      * exfalso; eapply H1; eauto.
    + split; [intros _; left; eauto|]. split; [intros (? & ? & ? & Q); discriminate|]. intros; discriminate.
    + split; [intros (? & ? & ? & Q); discriminate|]. split; [intros _; left; eauto|]. intros; discriminate.
    + inversion HTk as [|? ? HT1 _]; subst. inversion HT1; subst. split; [intros _; right; right; exists i; eauto 8|].
      split; [intros (? & ? & ? & Q); discriminate|]. intros; discriminate.
    + inversion HTk as [|? ? HT1 _]; subst. inversion HT1; subst. split; [intros (? & ? & ? & Q); discriminate|].
      split; [intros _; right; right; exists i; eauto 8|]. intros; discriminate.
    + split; [auto|]. split; [auto|]. intros i j -> Q. discriminate.
  - split; [intros (? & ? & ? & Q); discriminate|]. split; [intros (? & ? & ? & Q); discriminate|]. intros; discriminate.
Qed.

Example C22_ex : exists root p' p q i, clean X0 sampleDoc [] root p' /\
  within root (NRange p INCLUSIVE_BOUND (NIntegerLiteral q INT 0) (NIdentifier i)).
Proof.
  do 5 eexists. split; [vm_compute; reflexivity|].
  eapply w_child; [apply c_root; do 4 right; left; reflexivity|]. eapply w_child; [apply c_rule|]. apply w_self.
Qed.

(** A bound of another kind is silently lost: [0..tstr] has no upper bound. *)
Example C22_ex_lost : exists p q p', clean X0 (str "x = 0..tstr") [] (NCDDL zeroPos [NRule zeroPos (mkIdent q (str "x"))
   (NRange p INCLUSIVE_BOUND (NIntegerLiteral (mkPos [] 4 1 5) INT 0) NNil) None]) p'.
Proof. do 3 eexists. vm_compute. reflexivity. Qed.

(** ** C24 *)

(** The nodes that groups and arrays keep. *)
Inductive GroupEntryNode : node -> Prop :=
| ge_entry : forall p i v c, GroupEntryNode (NEntry p i v c)
| ge_ident : forall i, GroupEntryNode (NIdentifier i)
| ge_group : forall p l, GroupEntryNode (NGroup p l)
| ge_range : forall p t a b, GroupEntryNode (NRange p t a b)
| ge_enum : forall p t v, GroupEntryNode (NEnumeration p t v)
| ge_optional : forall p t v, GroupEntryNode (NOptional p t v)
| ge_occur : forall p t a b v, GroupEntryNode (NNMOccurrence p t a b v)
| ge_comment : forall c, GroupEntryNode (NComment c)
| ge_comments : forall l, GroupEntryNode (NCommentGroup l).

(** [Kept ns l]: [l] is the sub-list of the group entries of [ns]. *)
Inductive Kept : list node -> list node -> Prop :=
| Kept_nil : Kept [] []
| Kept_keep : forall n ns l, GroupEntryNode n -> Kept ns l -> Kept (n :: ns) (n :: l)
| Kept_drop : forall n ns l, ~ GroupEntryNode n -> Kept ns l -> Kept (n :: ns) l.

Lemma groupEntry_iff : forall n, real n -> (isGroupEntry n = true <-> GroupEntryNode n).
Proof.
  intros n [R1 R2]. destruct n; simpl; split; intros H; try discriminate H; try constructor; try (inversion H; fail); try congruence.
Qed.

Lemma kept_filter : forall ns, Forall real ns -> forall l, Kept ns l <-> l = filter isGroupEntry ns.
Proof.
  induction ns as [|n ns IH]; intros HR l; simpl; inversion HR; subst.
  - split; intros H; [inversion H; auto|subst; constructor].
  - destruct (isGroupEntry n) eqn:E.
    + assert (G : GroupEntryNode n) by (apply groupEntry_iff; auto). split; intros HK.
      * inversion HK; subst; [f_equal; now apply IH|contradiction].
      * subst. constructor; auto. now apply IH.
    + assert (G : ~ GroupEntryNode n) by (intros K; apply groupEntry_iff in K; auto; congruence). split; intros HK.
      * inversion HK; subst; [contradiction|now apply IH].
      * subst. apply Kept_drop; auto. now apply IH.
Qed.

Lemma entries_real : forall X es c ns tk, Entries X es c ns tk -> Forall real ns.
Proof.
  intros X es c ns tk H. induction H; constructor; auto. eapply Entry_real; eauto.
Qed.

(** A bracketed list whose entries parse to [ns]: a group or array holds the
    group entries among [ns], a map holds all of [ns], and nothing is reported. *)
Theorem C24_brackets : forall X eof p fuel o es c rest ns tk,
  Toks X p (o :: es ++ c :: rest) (FEof eof) -> (length (o :: es ++ c :: rest) < fuel)%nat ->
  Entries X es c ns tk -> infixTok (tTok (nextOf rest eof)) = false ->
  let result n := exists p', parseEntry X fuel (precedence (curr p)) p = Ok (n, None, p') /\
                             Toks X p' (c :: rest) (FEof eof) /\ tasks p' = tasks p ++ tk in
  (tTok o = LPAREN -> tTok c = RPAREN -> exists l, Kept ns l /\ result (NGroup (tPos o) l)) /\
  (tTok o = LBRACK -> tTok c = RBRACK -> exists l, Kept ns l /\ result (NArray (tPos o) l)) /\
  (tTok o = LBRACE -> tTok c = RBRACE -> result (NMap (tPos o) ILLEGAL ns)).
Proof.
  intros X eof p fuel o es c rest ns tk HT HL HE HI result.
  pose proof (entries_real _ _ _ _ _ HE) as HR.
  assert (HG : forall n, Nud X (o :: es ++ [c]) (nextOf rest eof) n tk -> result n).
  { intros n HN. unfold result.
    assert (HEn : Entry X (o :: es ++ [c]) (nextOf rest eof) n tk).
    { assert (HE1 : Entry X ([] ++ (o :: es ++ [c]) ++ []) (nextOf rest eof) n (tk ++ [])).
      { econstructor; [constructor|exact HN|]. apply T_end. right. exact HI. }
      now rewrite !app_nil_r in HE1. }
    assert (EQ : o :: es ++ c :: rest = (o :: es ++ [c]) ++ rest) by (simpl; now rewrite <- app_assoc).
    rewrite EQ in HT, HL.
    destruct (proj2 (C17_entry_iff X eof p fuel o (es ++ [c]) rest n tk HT HL) HEn) as (p' & E1 & E2 & E3).
    exists p'. split; auto. split; auto. unfold lastOf in E2. rewrite last_last in E2. exact E2. }
  split; [|split].
  - intros Ho Hc. exists (filter isGroupEntry ns). split; [now apply kept_filter|]. apply HG. constructor; auto.
  - intros Ho Hc. exists (filter isGroupEntry ns). split; [now apply kept_filter|]. apply HG. constructor; auto.
  - intros Ho Hc. apply HG. constructor; auto.
Qed.

(** Tokens of a return. *)
Lemma returned_rules : forall X s e rules ds p', decodable s ->
  parseSource X (parseFuel s) s e = Ok ((Some (NCDDL zeroPos rules), ds), p') ->
  exists ts eof, tokens X s ts eof /\ Forall (RuleOf X ts) rules.
Proof.
  intros X s e rules ds p' D H. destruct (new_str X s D) as (ts & f & k & HS & HC & _ & HL & HE).
  assert (HF : (length ts <= parseFuel s)%nat) by (unfold parseFuel; lia).
  pose proof (source_post X (fun _ => True) s e _ ts f HS HF (posOk_true _ _)) as HP. rewrite H in HP. cbn [wp] in HP.
  destruct HP as (t2 & l2 & _ & [(_ & K & _)|(_ & r & tk & df & ds' & K & _ & _ & _ & _ & _ & _ & EF & _)]); [discriminate|].
  exists ts, (eofOf f). split; [unfold tokens; congruence|]. eapply source_loose; eauto.
Qed.

(** In all returned trees, with or without diagnostics: groups and arrays hold
    group entries only. *)
Theorem C24_trees : forall X s e rules ds p' l, decodable s ->
  parseSource X (parseFuel s) s e = Ok ((Some (NCDDL zeroPos rules), ds), p') ->
  (exists p, within (NCDDL zeroPos rules) (NGroup p l)) \/ (exists p, within (NCDDL zeroPos rules) (NArray p l)) -> Forall GroupEntryNode l.
Proof.
  intros X s e rules ds p' l D H HW. destruct (returned_rules _ _ _ _ _ _ D H) as (ts & eof & _ & HR).
  assert (HS : forall m, within (NCDDL zeroPos rules) m -> (exists k, m = NTypedNil k /\ isGroupEntry m = true) \/ (exists p, m = NGroup p l \/ m = NArray p l) ->
            Shape X (fun _ => True) (fun _ => True) m).
  { intros m Hm HK. destruct (loose_shapes X (fun _ => True) ts rules HR) with (m := m) as [K|[K|[(p & w & _ & K)|[K|[K|K]]]]]; auto.
    - apply Forall_forall; auto.
    - subst. destruct HK as [(k & K & _)|(p & [K|K])]; discriminate K.
    - exfalso. destruct HK as [(k & -> & _)|(p & [-> | ->])]; inversion K.
    - subst. destruct HK as [(k & E & _)|(q & [E|E])]; discriminate E.
    - subst. destruct HK as [(k & E & _)|(q & [E|E])]; discriminate E.
    - subst. destruct HK as [(k & E & E2)|(q & [E|E])]; discriminate. }
  assert (HG : forall n, isGroupEntry n = true -> within (NCDDL zeroPos rules) n -> GroupEntryNode n).
  { intros n HG HWn. apply groupEntry_iff; auto. split; [intros ->; discriminate|]. intros k ->.
    assert (K : Shape X (fun _ => True) (fun _ => True) (NTypedNil k)) by (apply HS; eauto).
    inversion K; subst; [inversion H0|inversion H0]. }
  destruct HW as [[p HW]|[p HW]].
  - assert (K : Shape X (fun _ => True) (fun _ => True) (NGroup p l)) by (apply HS; eauto).
    inversion K; subst; try (inversion H0; fail). apply Forall_forall. intros n Hn. apply HG.
    + match goal with H : Forall _ l |- _ => rewrite Forall_forall in H; apply H; auto end.
    + eapply within_trans; [exact HW|]. eapply w_child; [apply c_group; eauto|apply w_self].
  - assert (K : Shape X (fun _ => True) (fun _ => True) (NArray p l)) by (apply HS; eauto).
    inversion K; subst; try (inversion H0; fail). apply Forall_forall. intros n Hn. apply HG.
    + match goal with H : Forall _ l |- _ => rewrite Forall_forall in H; apply H; auto end.
    + eapply within_trans; [exact HW|]. eapply w_child; [apply c_array; eauto|apply w_self].
Qed.

(** [tstr], [int / nil] and [5] disappear from the array, without a diagnostic. *)
Example C24_ex : exists q p' i j k l, clean X0 (lines ["x = [tstr, a: int, x, int / nil, 5]"]) []
  (NCDDL zeroPos [NRule zeroPos (mkIdent q (str "x")) (NArray i [NEntry j (mkIdent k (str "a")) (NIntegerType l INT) None;
     NIdentifier (mkIdent (mkPos [] 19 1 20) (str "x"))]) None]) p'.
Proof. do 6 eexists. vm_compute. reflexivity. Qed.

(** ** C25 *)

Theorem C25_comparators : forall X s e rules ds p' p t o l r, decodable s ->
  parseSource X (parseFuel s) s e = Ok ((Some (NCDDL zeroPos rules), ds), p') ->
  within (NCDDL zeroPos rules) (NComparator p t o l r) ->
  l = NTypedNil KIntegerType /\ node_start (NComparator p t o l r) = Panic /\
  In t [LT; LE; GT; GE; EQ; NE] /\ exists ts eof, tokens X s ts eof /\ In (mkTok t p o) ts.
Proof.
  intros X s e rules ds p' p t o l r D H HW. destruct (returned_rules _ _ _ _ _ _ D H) as (ts & eof & HS & HR).
  destruct (loose_shapes X (fun t => In t ts) ts rules HR) with (m := NComparator p t o l r) as [K|[K|[(q & w & _ & K)|[K|[K|K]]]]];
    auto; try discriminate; try (inversion K; fail); try (apply Forall_forall; auto; fail).
  inversion K as [t0 nx n tk0 HAt HNx HP HTk| op l0 t0 v0 n tk0 HI HP | | | | | | | | | | | |]; subst; [inversion HAt|].
  inversion HI; subst. split; auto. split; auto. split; auto. exists ts, eof. split; auto.
  destruct op; exact HP.
Qed.

(** The comparison of a type with any right operand is accepted with its
    operator and right operand. *)
Theorem C25_accepted : forall X eof p fuel l op e rest v tk,
  Toks X p ((l :: op :: e) ++ rest) (FEof eof) -> (length ((l :: op :: e) ++ rest) < fuel)%nat ->
  tTok l = UINT \/ tTok l = INT \/ floatTok (tTok l) -> tLit l = tokenName (tTok l) -> In (tTok op) [LT; LE; GT; GE; EQ; NE] ->
  Entry X e (nextOf rest eof) v tk ->
  exists p', parseEntry X fuel (precedence (curr p)) p =
    Ok (NComparator (tPos op) (tTok op) (tLit op) (NTypedNil KIntegerType) v, None, p').
Proof.
  intros X eof p fuel l op e rest v tk HT HL Hl Hw Hop HE.
  destruct e as [|t e]; [exfalso; eapply (Entry_ne _ _ _ _ _ HE); eauto|].
  assert (HAt : exists n, Atom X l (tTok op) n [] /\ In (typeOf n) [Some KUintType; Some KIntegerType; Some KFloatType]).
  { destruct l as [k q w]. simpl in Hl, Hw. subst w. destruct Hl as [-> |[-> |Hl]].
    - eexists. split; [apply A_uint|simpl; auto].
    - eexists. split; [apply A_int|simpl; auto].
    - eexists. split; [apply A_floatType; auto|simpl; auto]. }
  destruct HAt as (n & HA1 & HA2).
  assert (HEn : Entry X ([] ++ ([l] ++ (op :: t :: e))) (nextOf rest eof)
            (NComparator (tPos op) (tTok op) (tLit op) (NTypedNil KIntegerType) v) ([] ++ (tk ++ []))).
  { change [l] with (l :: []). eapply E_intro; [constructor|apply N_atom; exact HA1|]. cbn [lastOf last].
    eapply T_infix; [|exact HE|apply I_compare; auto].
    unfold floatTok in Hl. simpl in Hl. intuition congruence. }
  simpl in HEn. destruct (proj2 (C17_entry_iff X eof p fuel l (op :: t :: e) rest _ _ HT HL) HEn) as (p' & E1 & _). eauto.
Qed.

Example C25_ex : exists root p' p q, clean X0 (str "x = uint .le 7") [] root p' /\
  within root (NComparator p LE (str ".le") (NTypedNil KIntegerType) (NIntegerLiteral q INT 7)).
Proof.
  do 4 eexists. split; [vm_compute; reflexivity|].
  eapply w_child; [apply c_root; left; reflexivity|]. eapply w_child; [apply c_rule|]. apply w_self.
Qed.

(** ** C26 (lines) *)

(** [1 + newlines s] is the number of lines of [s]. *)
Theorem C26_lines : forall X s e fuel root ds p', decodable s -> (parseFuel s <= fuel)%nat ->
  parseSource X fuel s e = Ok ((root, Some ds), p') ->
  ds <> [] /\ Forall (fun d => 1 <= pLine (dStart d) <= 1 + newlines s) ds.
Proof.
  intros X s e fuel root ds p' D HFu E.
  destruct (new_str X s D) as (ts & f & k & HS & HC & _ & HL & HE).
  assert (HF : (length ts <= fuel)%nat) by (unfold parseFuel in HFu; lia).
  pose proof (source_post X (lineIn s) s e fuel ts f HS HF (stream_lines _ _ _ _ HC HE)) as H.
  rewrite E in H. cbn [wp] in H.
  destruct H as (t2 & l2 & H2 & [(_ & H3 & _)|(H3 & rules' & tk & df & ds' & H4 & H5 & H6 & _)]); [discriminate|].
  inversion H4 as [[Hr Hc]]. destruct (perrors p') as [|d l] eqn:EP; [discriminate|]. simpl in Hc. inversion Hc; subst.
  split; [discriminate|]. exact H6.
Qed.

(** ** C27 *)

(** For every source and any fuel. *)
Theorem C27_result_shape : forall X s e fuel t2 l2, scans X 2 (newLexer s) = Ok (t2, l2) ->
  (errors l2 <> [] -> exists p', parseSource X fuel s e = Ok ((None, None), p')) /\
  (errors l2 = [] -> forall root ds p', parseSource X fuel s e = Ok ((root, ds), p') ->
     (exists rules, root = Some (NCDDL zeroPos rules)) /\
     (ds = None /\ perrors p' = [] \/ ds = Some (perrors p') /\ perrors p' <> [])).
Proof.
  intros X s e fuel t2 l2 H. simpl in H. unfold parseSource, newParser, pnext. cbn [lx pk perrors env tasks].
  destruct (scan X (newLexer s)) as [[t1 l1]| | |]; try discriminate. cbn [rbind lx pk perrors env tasks] in *.
  destruct (scan X l1) as [[t3 l3]| | |]; try discriminate. cbn [rbind lx pk perrors env tasks] in *. inversion H; subst.
  unfold parseFile. cbn [lx]. split.
  - intros N. destruct (errors l2); [congruence|]. eauto.
  - intros E root ds p'. rewrite E. destruct (fileLoop X fuel fuel [] _) as [[rules p1]| | |]; try discriminate. cbn [rbind].
    intros Q. inversion Q; subst. split; [eauto|]. destruct (perrors (runTasks p1)) eqn:EP; simpl; auto.
    right. split; auto. discriminate.
Qed.

Theorem C27_nil_only_if : forall X s e fuel ds p', parseSource X fuel s e = Ok ((None, ds), p') ->
  ds = None /\ exists t2 l2, scans X 2 (newLexer s) = Ok (t2, l2) /\ errors l2 <> [].
Proof.
  intros X s e fuel ds p'. unfold parseSource, newParser, pnext. cbn [lx pk perrors env tasks]. simpl scans.
  destruct (scan X (newLexer s)) as [[t1 l1]| | |]; try discriminate. cbn [rbind lx pk perrors env tasks].
  destruct (scan X l1) as [[t3 l3]| | |]; try discriminate. cbn [rbind lx pk perrors env tasks].
  unfold parseFile. cbn [lx]. destruct (errors l3) eqn:EL.
  - destruct (fileLoop X fuel fuel [] _) as [[rules p1]| | |]; discriminate.
  - intros Q. inversion Q; subst. split; auto. do 2 eexists. split; [reflexivity|]. rewrite EL. discriminate.
Qed.

(** An unterminated string as first token: a nil tree and no diagnostic. *)
Example C27_ex : (exists p', parse X0 (str """abc") = Ok ((None, None), p')) /\
  (exists r d p', parse X0 (str "x = ?") = Ok ((Some r, Some [d]), p')).
Proof. split; [eexists; vm_compute; reflexivity|do 3 eexists; vm_compute; reflexivity]. Qed.
