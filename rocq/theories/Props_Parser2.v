(** Properties C15, C23, C28-C30, C32: more about the parser. *)
From Coq Require Import String.
From Verif Require Import Base Utf8 Token Ext Strconv StrconvSpec StrconvProofs Lexer LexSpec LexSpec2 LexerProofs LexOne LexSeq LexHang
  Ast Env Diag Parser ParseSpec ParseStream ParseFacts ParseSound ParseLoop ParseTop ParseComplete ParseFileC ParseShape ParseSource
  ParseUnique ParseTree ParseFuel ParseFrame ParseTwin ParseTokens ParseLoose EnvProofs Props_Lexer Props_Parser.
Open Scope string_scope.
Open Scope list_scope.
Open Scope Z_scope.

(** ** C28 *)

(** Sources that no number of Scan calls tells apart, and without a lexer error
    in the first two tokens, are parsed alike: same tree, same diagnostics, same
    environment, same panic or divergence. Errors recorded by the lexer later on
    have no influence. *)
Theorem C28_tokens_only : forall X fuel s s' e t l t' l', (forall n, seen X n (newLexer s) = seen X n (newLexer s')) ->
  scans X 2 (newLexer s) = Ok (t, l) -> scans X 2 (newLexer s') = Ok (t', l') -> errors l = [] -> errors l' = [] ->
  (forall r p, parseSource X fuel s e = Ok (r, p) -> exists p', parseSource X fuel s' e = Ok (r, p') /\ perrors p' = perrors p /\ env p' = env p) /\
  (parseSource X fuel s e = Panic <-> parseSource X fuel s' e = Panic) /\
  (parseSource X fuel s e = Hang <-> parseSource X fuel s' e = Hang).
Proof.
  intros X fuel s s' e t l t' l' HS H2 H2' HE HE'.
  assert (HR : relRes (twinPair X) (parseSource X fuel s e) (parseSource X fuel s' e)).
  { apply parseSource_twin; auto. intros a b a' b' K K'. rewrite H2 in K. rewrite H2' in K'. inversion K; inversion K'; subst; auto. }
  destruct (parseSource X fuel s e) as [[r p]| | |], (parseSource X fuel s' e) as [[r' p']| | |]; simpl in HR; try contradiction;
    (split; [|split; split; intros; congruence]); try (intros; congruence).
  intros r0 p0 E. inversion E; subst. destruct HR as [HR1 HR2]. cbn [fst snd] in *. subst r'. exists p'. split; auto. destruct HR2; auto.
Qed.

(** The unterminated text of the third token is an error for the lexer, and the
    parser returns a tree without diagnostics, the same as for the text that is
    one character shorter. *)
Example C28_ex : let s := str "x = ""abc" in
  (exists ts l, scans X0 4 (newLexer s) = Ok (ts, l) /\ errors l <> []) /\
  (exists root p', parse X0 s = Ok ((Some root, None), p')) /\
  (forall n, seen X0 n (newLexer s) = seen X0 n (newLexer (str "x = ""ab"""))).
Proof.
  cbv zeta. split; [do 2 eexists; split; [vm_compute; reflexivity|discriminate]|]. split; [do 2 eexists; vm_compute; reflexivity|].
  set (ts := [mkTok IDENT (mkPos [] 0 1 1) (str "x"); mkTok ASSIGN (mkPos [] 2 1 3) (str "="); mkTok TEXT_LITERAL (mkPos [] 4 1 5) (str "ab")]).
  set (eof := mkTok EOF (mkPos [] 8 1 9) []).
  apply (str_same X0 ts (FEof eof)); eapply tokens_by_scans; try (apply good_by_ascii; vm_compute; reflexivity); vm_compute; reflexivity.
Qed.

(** ** C29 *)

(** A sequence of rules, each an identifier, an assignment sign and an entry, none
    followed by a comment on its last line. *)
Inductive Rules (X : Ext) (eof : tokInfo) : list tokInfo -> list node -> list task -> environment -> Prop :=
| Ru_nil : Rules X eof [] [] [] []
| Ru_cons : forall p w a t e ts v rules tk tk' defs, assignTok (tTok a) ->
    Entry X (t :: e) (nextOf ts eof) v tk -> ~ trailing (last e t) (hd eof ts) -> Rules X eof ts rules tk' defs ->
    Rules X eof (mkTok IDENT p w :: a :: t :: e ++ ts) (NRule zeroPos (mkIdent p w) v None :: rules) (tk ++ tk')
      (defOf (tTok a) w v ++ defs).

Lemma rules_file : forall X eof ts rules tk defs, Rules X eof ts rules tk defs -> File X ts eof rules tk defs.
Proof. intros X eof ts rules tk defs H. induction H; [constructor|]. apply (F_rule X p w a t e); auto. Qed.

(** The tree lists the rules, all of them and in order, and only deferred checks
    can report something. *)
Theorem C29_all_rules_kept : forall X s e fuel ts eof t2 l2 rules tk defs, tokens X s ts eof -> (length ts <= fuel)%nat ->
  scans X 2 (newLexer s) = Ok (t2, l2) -> errors l2 = [] ->
  Rules X eof ts rules tk defs -> NoDup (names (e ++ defs)) ->
  exists ds p', parseSource X fuel s e = Ok ((Some (NCDDL zeroPos rules), ds), p') /\ env p' = e ++ defs /\
    (ds = None <-> Forall (fun t => runTask (e ++ defs) t = None) tk).
Proof.
  intros X s e fuel ts eof t2 l2 rules tk defs HS HL H2 HE HR HND.
  destruct (source_gen X s e fuel ts eof t2 l2 rules tk defs) as (p' & E1 & E2 & E3 & E4); auto using rules_file.
  exists (collect (failures (e ++ defs) tk)), p'. split; auto. split; auto. rewrite collect_none. apply failures_nil.
Qed.

(** A comment on the last line of a rule: it is stored with the rule and the token
    after it, whatever it is, is dropped. *)
Theorem C29_next_token_lost : forall X s e fuel ts eof t2 l2 p w a t u c lost rest v tk rules tk' defs,
  tokens X s ts eof -> (length ts <= fuel)%nat -> scans X 2 (newLexer s) = Ok (t2, l2) -> errors l2 = [] ->
  ts = mkTok IDENT p w :: a :: (t :: u) ++ c :: lost :: rest -> assignTok (tTok a) -> Entry X (t :: u) c v tk -> trailing (last u t) c ->
  Rules X eof rest rules tk' defs -> NoDup (names (e ++ defOf (tTok a) w v ++ defs)) ->
  exists ds p', parseSource X fuel s e =
    Ok ((Some (NCDDL zeroPos (NRule zeroPos (mkIdent p w) v (Some (commentOf c)) :: rules)), ds), p').
Proof.
  intros X s e fuel ts eof t2 l2 p w a t u c lost rest v tk rules tk' defs HS HL H2 HE -> HA HEn HTr HR HND.
  destruct (source_gen X s e fuel (mkTok IDENT p w :: a :: (t :: u) ++ c :: lost :: rest) eof t2 l2
    (NRule zeroPos (mkIdent p w) v (Some (commentOf c)) :: rules) (tk ++ tk') (defOf (tTok a) w v ++ defs)) as (p' & E1 & _); auto.
  - apply (F_ruleComment X p w a t u c [lost]); auto. apply rules_file. exact HR.
  - eexists. eexists. exact E1.
Qed.

(** The name of the second rule is lost, which makes the rest an error; a comment
    line in that place is dropped silently. *)
Example C29_ex :
  (exists ds r1 n1 n2 n3 p', parse X0 (lines ["a = 1 ; one"; "b = 2"]) = Ok ((Some (NCDDL zeroPos [NRule zeroPos n1 n2 n3]), Some (r1 :: ds)), p')) /\
  (exists a b c d e f p', parse X0 (lines ["a = 1 ; one"; "; two"; "b = 2"]) = Ok ((Some (NCDDL zeroPos [NRule zeroPos a b c; NRule zeroPos d e f]), None), p')) /\
  (exists a b c d e f p', parse X0 (lines ["a = 1"; "b = 2"]) = Ok ((Some (NCDDL zeroPos [NRule zeroPos a b c; NRule zeroPos d e f]), None), p')).
Proof. split; [do 6 eexists; vm_compute; reflexivity|]. split; do 7 eexists; vm_compute; reflexivity. Qed.

(** ** C30 *)

Definition optPos {A} (f : A -> position) (o : option A) : list position := match o with Some x => [f x] | None => [] end.

(** The positions stored in the node itself. *)
Definition ownPos (n : node) : list position :=
  match n with
  | NNil | NTypedNil _ => []
  | NIdentifier i => [iPos i]
  | NComment c => [cPos c]
  | NCommentGroup l => map cPos l
  | NBooleanType p _ | NTstrType p _ | NTextLiteral p _ _ | NFloatType p _ _ | NIntegerType p _ | NNegativeIntegerType p _
  | NIntegerLiteral p _ _ | NBstrType p _ | NBytesType p _ | NNullType p _ | NTypeChoice p _ _ _ | NGroupChoice p _ _ _
  | NUnwrap p _ _ | NEnumeration p _ _ | NOptional p _ _ | NSizeOp p _ _ _ | NBits p _ _ _ | NComparator p _ _ _ _
  | NRange p _ _ _ | NGroup p _ | NMap p _ _ | NArray p _ | NCDDL p _ => [p]
  | NBooleanLiteral r _ | NFloatLiteral r _ _ | NUintType r _ => [rStart r; rEnd r]
  | NUintLiteral u => [uPos u]
  | NEntry p i _ tc => p :: iPos i :: optPos cPos tc
  | NTag p _ a b _ => p :: optPos uPos a ++ optPos uPos b
  | NNMOccurrence p _ a b _ => p :: optPos uPos a ++ optPos uPos b
  | NRegexp p _ b _ => p :: optPos fst b
  | NBadNode p _ _ e => [p; e]
  | NRule p i _ tc => p :: iPos i :: optPos cPos tc
  end.

(** The position of a token, the zero position, or the end of a literal of a fixed
    width. *)
Definition TokenPos (ts : list tokInfo) (q : position) : Prop :=
  q = zeroPos \/ (exists t, In t ts /\ q = tPos t) \/
  (exists t k, In t ts /\ q = posTo (tPos t) k /\ (k = 3 \/ k = 4 \/ k = zlen (tLit t) - 1)).

Lemma tp_tok : forall ts t q, In t ts -> q = tPos t -> TokenPos ts q.
Proof. intros. right. left. eauto. Qed.
Lemma tp_zero : forall ts, TokenPos ts zeroPos.
Proof. intros. left. reflexivity. Qed.
Lemma tp_end : forall ts t k, In t ts -> k = 3 \/ k = 4 \/ k = zlen (tLit t) - 1 -> TokenPos ts (posTo (tPos t) k).
Proof. intros. right. right. eauto. Qed.

Local Hint Resolve tp_zero : core.
Ltac tokpos := match goal with H : In ?t ?ts |- TokenPos ?ts _ => exact (tp_tok ts t _ H eq_refl) end.

Lemma atom_pos : forall X ts t nx n tk, Atom X t nx n tk -> In t ts -> Forall (TokenPos ts) (ownPos n).
Proof.
  intros X ts t nx n tk H HI. inversion H; subst; cbn [ownPos rStart rEnd iPos uPos];
    repeat (apply Forall_cons || apply Forall_nil); try (eapply tp_tok; [exact HI|reflexivity]);
    match goal with |- TokenPos _ (posTo ?p _) => match goal with HI : In (mkTok ?t p ?w) _ |- _ => apply (tp_end _ (mkTok t p w)); auto end end.
Qed.

Lemma upper_pos : forall ts t up, Upper t up -> In t ts -> Forall (TokenPos ts) (optPos uPos up).
Proof. intros ts t up H HI. inversion H; subst; cbn [optPos uPos]; repeat (apply Forall_cons || apply Forall_nil). tokpos. Qed.

Lemma shape_pos : forall X ts n, Shape X (fun t => In t ts) (fun _ => True) n -> Forall (TokenPos ts) (ownPos n).
Proof.
  intros X ts n H.
  assert (HL : forall l, LeftShape X (fun t => In t ts) (fun _ => True) l ->
     forall q, (exists i, l = NIdentifier i /\ q = iPos i) \/ (exists p t v, l = NIntegerLiteral p t v /\ q = p) \/ (exists u, l = NUintLiteral u /\ q = uPos u)
       \/ (exists p t, l = NTstrType p t /\ q = p) -> TokenPos ts q).
  { intros l HL q HQ. inversion HL as [n0 HS|p w HI]; subst.
    - inversion HS as [t nx n1 tk HAt _ HI| op l0 t v n1 tk HInf | | | | | | | | | | | |]; subst;
        try (exfalso; destruct HQ as [(? & E & _)|[(? & ? & ? & E & _)|[(? & E & _)|(? & ? & E & _)]]]; discriminate E).
      + pose proof (atom_pos _ _ _ _ _ _ HAt HI) as HF.
        destruct HQ as [(? & -> & ->)|[(? & ? & ? & -> & ->)|[(? & -> & ->)|(? & ? & -> & ->)]]]; cbn [ownPos] in HF; inversion HF; auto.
      + exfalso. inversion HInf; subst; destruct HQ as [(? & E & _)|[(? & ? & ? & E & _)|[(? & E & _)|(? & ? & E & _)]]]; discriminate E.
    - destruct HQ as [(i & E & ->)|[(? & ? & ? & E & _)|[(? & E & _)|(? & ? & E & _)]]]; try discriminate E. inversion E; subst.
      tokpos. }
  destruct H; try (cbn [ownPos optPos]; repeat (apply Forall_cons || apply Forall_nil); try tokpos; auto; fail).
  - eapply atom_pos; eauto.
  - assert (HK : forall q, (exists i, l = NIdentifier i /\ q = iPos i) \/ (exists p t v, l = NIntegerLiteral p t v /\ q = p) \/ (exists u, l = NUintLiteral u /\ q = uPos u)
       \/ (exists p t, l = NTstrType p t /\ q = p) -> TokenPos ts q) by (apply HL; auto).
    destruct H; cbn [ownPos optPos]; repeat (apply Forall_cons || apply Forall_nil || (apply Forall_app; split)); try tokpos.
    + apply HK. right; right; right. eauto 10.
    + match goal with HLo : Lower _ _ |- _ => inversion HLo; subst end; apply HK; cbn [uPos]; [right; left; eauto 10|right; right; left; eauto 10].
    + eapply upper_pos; eauto.
  - cbn [ownPos optPos]. repeat (apply Forall_cons || apply Forall_nil); [tokpos|].
    match goal with HKy : Key _ _ _ |- _ => inversion HKy; subst end; [eapply HL; eauto|tokpos].
  - cbn [ownPos optPos]. repeat (apply Forall_cons || apply Forall_nil); [tokpos| |tokpos].
    match goal with HKy : Key _ _ _ |- _ => inversion HKy; subst end; [eapply HL; eauto|tokpos].
  - cbn [ownPos optPos uPos app]. repeat (apply Forall_cons || apply Forall_nil); try tokpos. eapply upper_pos; eauto.
  - cbn [ownPos optPos uPos app]. repeat (apply Forall_cons || apply Forall_nil); try tokpos. eapply upper_pos; eauto.
  - cbn [ownPos]. apply Forall_cons; [tokpos|].
    match goal with HT : TagNum _ _ _ _ |- _ => inversion HT; subst end; cbn [optPos uPos app]; repeat (apply Forall_cons || apply Forall_nil); auto;
      match goal with HF : Forall _ [_] |- _ => inversion HF; subst end; tokpos.
Qed.

Theorem C30_positions : forall X s e rules ds p' ts eof n q, decodable s ->
  parseSource X (parseFuel s) s e = Ok ((Some (NCDDL zeroPos rules), ds), p') -> tokens X s ts eof ->
  within (NCDDL zeroPos rules) n -> In q (ownPos n) -> TokenPos ts q.
Proof.
  intros X s e rules ds p' ts eof n q D H HS HW HQ.
  assert (HL : (length ts <= parseFuel s)%nat).
  { destruct (new_str X s D) as (ts' & f & k & HS' & HC & _ & HL & HE). destruct (str_fun _ _ _ _ HS _ _ HS') as [-> _]. unfold parseFuel. lia. }
  pose proof (source_loose X s e _ ts _ rules ds p' HS HL H) as HR.
  assert (HF : Forall (TokenPos ts) (ownPos n)).
  { destruct (loose_shapes X (fun t => In t ts) ts rules HR) with (m := n) as [-> |[K|[(p & w & K & ->)|[K|[-> | ->]]]]]; auto; try (cbn [ownPos]; repeat (apply Forall_cons || apply Forall_nil); auto; fail).
    - apply Forall_forall; auto.
    - destruct K; cbn [ownPos optPos iPos commentOf cPos].
      + apply Forall_cons; auto. tokpos.
      + apply Forall_forall. intros x Hx. apply in_map_iff in Hx as (c & <- & Hc). apply in_map_iff in Hc as (t & <- & Ht).
        match goal with HP : Forall (fun t => In t ts) cms |- _ => rewrite Forall_forall in HP; exact (tp_tok ts t _ (HP _ Ht) eq_refl) end.
      + repeat (apply Forall_cons || apply Forall_nil); auto. tokpos.
      + repeat (apply Forall_cons || apply Forall_nil); auto; tokpos.
    - cbn [ownPos optPos iPos]. repeat (apply Forall_cons || apply Forall_nil); auto. tokpos.
    - eapply shape_pos; eauto. }
  rewrite Forall_forall in HF. auto.
Qed.

(** The tree of [sampleDoc] has a position of each sort. *)
Example C30_ex : exists rules p', parse X0 (str "a = [b: true]") = Ok ((Some (NCDDL zeroPos rules), None), p') /\
  exists p, within (NCDDL zeroPos rules) (NBooleanLiteral (mkRange p (posTo p 3)) true) /\ p <> zeroPos.
Proof.
  do 2 eexists. split; [vm_compute; reflexivity|]. exists (mkPos [] 8 1 9). split; [|discriminate].
  eapply w_child; [apply c_root; left; reflexivity|]. eapply w_child; [apply c_rule|]. eapply w_child; [apply c_array; left; reflexivity|].
  eapply w_child; [apply c_entry|]. apply w_self.
Qed.

(** ** C23 *)

(** Operands joined by choice operators, in source order: the first operand and
    the operators with their right operands. *)
Inductive Operands (X : Ext) : list tokInfo -> tokInfo -> node -> list (tokInfo * node) -> list task -> Prop :=
| Op_last : forall t u nx n tk, Nud X (t :: u) nx n tk -> over (tTok (last u t)) (tTok nx) -> Operands X (t :: u) nx n [] tk
| Op_comma : forall t u c nx n tk, Nud X (t :: u) c n tk -> tTok (last u t) <> COMMA -> tTok c = COMMA ->
    Operands X ((t :: u) ++ [c]) nx n [] tk
| Op_more : forall t u op w nx n m r tk tk', Nud X (t :: u) op n tk -> tTok (last u t) <> COMMA ->
    tTok op = TYPE_CHOICE \/ tTok op = GROUP_CHOICE -> Operands X w nx m r tk' ->
    Operands X ((t :: u) ++ op :: w) nx n ((op, m) :: r) (tk ++ tk').

(** The right nested choice. *)
Fixpoint rightNest (n : node) (r : list (tokInfo * node)) : node :=
  match r with
  | [] => n
  | (op, m) :: r' => NTypeChoice (tPos op) (tTok op) n (rightNest m r')
  end.

Lemma operands_entry : forall X u nx n r tk, Operands X u nx n r tk -> Entry X u nx (rightNest n r) tk.
Proof.
  intros X u nx n r tk H. induction H as [t u nx n tk HN HI|t u c nx n tk HN HL HC|t u op w nx n m r tk tk' HN HC HO HR IH].
  - assert (HE : Entry X ([] ++ (t :: u) ++ []) nx n (tk ++ [])).
    { eapply E_intro; [constructor|exact HN|]. apply T_end. exact HI. }
    now rewrite !app_nil_r in HE.
  - cbn [rightNest]. rewrite <- (app_nil_r tk). apply (E_intro X [] t u [c] nx n tk); [constructor|exact HN|]. apply T_comma; assumption.
  - cbn [rightNest]. destruct w as [|t2 w]; [exfalso; eapply (Entry_ne _ _ _ _ _ IH); eauto|].
    replace (tk ++ tk') with (tk ++ (tk' ++ [])) by now rewrite app_nil_r.
    apply (E_intro X [] t u (op :: t2 :: w) nx n tk); [constructor|exact HN|].
    eapply T_infix; [exact HC|exact IH|]. apply I_choice. exact HO.
Qed.

(** A chain of choices of any length, with any mixture of the two operators, is
    parsed to the right nested tree. *)
Theorem C23_right_nested : forall X eof p fuel t u rest n r tk,
  Toks X p ((t :: u) ++ rest) (FEof eof) -> (length ((t :: u) ++ rest) < fuel)%nat ->
  Operands X (t :: u) (nextOf rest eof) n r tk ->
  exists p', parseEntry X fuel (precedence (curr p)) p = Ok (rightNest n r, None, p') /\ Toks X p' (last u t :: rest) (FEof eof).
Proof.
  intros X eof p fuel t u rest n r tk HT HL HO. apply operands_entry in HO.
  destruct (proj2 (C17_entry_iff X eof p fuel t u rest _ tk HT HL) HO) as (p' & E1 & E2 & _). eauto.
Qed.

(** Conversely no tree has a choice as first alternative of a choice. *)
Definition isChoice (n : node) : bool := match n with NTypeChoice _ _ _ _ | NGroupChoice _ _ _ _ => true | _ => false end.
Definition NoLeft (n : node) : Prop := forall p t a b, within n (NTypeChoice p t a b) \/ within n (NGroupChoice p t a b) -> isChoice a = false.

Lemma noleft_child : forall n, isChoice n = false -> (forall m, child n m -> NoLeft m) -> NoLeft n.
Proof.
  intros n HC H p t a b [HW|HW]; (inversion HW as [|? m ? HCh HW']; subst; [discriminate HC|eapply (H _ HCh); eauto]).
Qed.

Lemma noleft_choice : forall p t a b, isChoice a = false -> NoLeft a -> NoLeft b -> NoLeft (NTypeChoice p t a b).
Proof.
  intros p t a b HC HA HB q k c d HW. assert (HX : isChoice c = false \/ exists m, (m = a \/ m = b) /\ (within m (NTypeChoice q k c d) \/ within m (NGroupChoice q k c d))).
  { destruct HW as [HW|HW]; inversion HW as [|? m ? HCh HW']; subst; auto; inversion HCh; subst; eauto. }
  destruct HX as [HX|(m & [-> | ->] & HX)]; auto; [eapply HA|eapply HB]; eauto.
Qed.

Lemma atom_noleft : forall X t nx n tk, Atom X t nx n tk -> isChoice n = false /\ NoLeft n.
Proof. intros X t nx n tk H. inversion H; subst; (split; [reflexivity|]); apply noleft_child; auto; intros m HC; inversion HC. Qed.

Lemma nil_noleft : forall n, isNil n -> NoLeft n.
Proof. intros n [-> | ->]; apply noleft_child; auto; intros m HC; inversion HC. Qed.

Lemma infix_noleft : forall op l t v n tk, Infix op l t v n tk -> isChoice l = false -> NoLeft l -> NoLeft v -> NoLeft n.
Proof.
  intros op l t v n tk H HC HL HV. destruct H; try (apply noleft_choice; auto; fail);
    (apply noleft_child; [reflexivity|]; intros m HCh; inversion HCh; subst; auto; try (apply nil_noleft; unfold isNil; auto; fail)).
Qed.

Lemma grammar_noleft : forall X,
  (forall u nx n tk, Entry X u nx n tk -> NoLeft n) /\
  (forall u nx n tk, Nud X u nx n tk -> isChoice n = false /\ NoLeft n) /\
  (forall lst l u nx n tk, Tail X lst l u nx n tk -> isChoice l = false -> NoLeft l -> NoLeft n) /\
  (forall es c ns tk, Entries X es c ns tk -> Forall NoLeft ns).
Proof.
  intros X. apply grammar_ind; intros; auto;
    try (split; [reflexivity|]; apply noleft_child; [reflexivity|]; intros m' HCh; inversion HCh; subst; auto; fail).
  - match goal with H : _ /\ _ |- _ => destruct H end. auto.
  - eapply atom_noleft; eauto.
  - split; auto. apply noleft_child; auto. intros m HC. inversion HC; subst.
    match goal with HI : In m (filter _ _), HF : Forall NoLeft _ |- _ => apply filter_In in HI; rewrite Forall_forall in HF; apply HF; apply HI end.
  - split; auto. apply noleft_child; auto. intros m HC. inversion HC; subst.
    match goal with HI : In m (filter _ _), HF : Forall NoLeft _ |- _ => apply filter_In in HI; rewrite Forall_forall in HF; apply HF; apply HI end.
  - split; auto. apply noleft_child; auto. intros m HC. inversion HC; subst.
    match goal with HI : In m _, HF : Forall NoLeft _ |- _ => rewrite Forall_forall in HF; apply HF; auto end.
  - split; auto. apply noleft_child; auto. intros m HC. inversion HC; subst. apply nil_noleft; left; auto.
  - eapply infix_noleft; eauto.
  - apply noleft_child; auto. intros m HC. inversion HC; subst; auto.
  - match goal with H : isChoice _ = false -> NoLeft _ -> NoLeft _ |- _ => apply H; auto end.
    apply noleft_child; auto. intros m' HC. inversion HC; subst; auto.
  - match goal with H : isChoice _ = false -> NoLeft _ -> NoLeft _ |- _ => apply H; auto end.
    apply noleft_child; auto. intros m' HC. inversion HC; subst; apply nil_noleft; left; auto.
Qed.

Theorem C23_trees : forall X s e rules ds p' p t a b, decodable s ->
  parseSource X (parseFuel s) s e = Ok ((Some (NCDDL zeroPos rules), ds), p') ->
  within (NCDDL zeroPos rules) (NTypeChoice p t a b) -> isChoice a = false.
Proof.
  intros X s e rules ds p' p t a b D H HW. destruct (new_str X s D) as (ts & f & k & HS & HC & _ & HL & HE).
  assert (HF : (length ts <= parseFuel s)%nat) by (unfold parseFuel; lia).
  pose proof (source_loose X s e _ ts f rules ds p' HS HF H) as HR.
  inversion HW as [|? n ? HCh HW']; subst. inversion HCh; subst. rewrite Forall_forall in HR.
  match goal with HI : In n rules |- _ => specialize (HR _ HI) end.
  assert (HN : NoLeft n).
  { destruct HR as [c cms _ _|q w _|q w u nx v tk tc _ _ HEn _].
    - apply noleft_child; [destruct cms; reflexivity|]. intros m HCm. destruct cms; inversion HCm.
    - apply noleft_child; auto. intros m HCm. inversion HCm; subst. apply nil_noleft; left; auto.
    - apply noleft_child; auto. intros m HCm. inversion HCm; subst. eapply (proj1 (grammar_noleft X)); eauto. }
  eapply HN; eauto.
Qed.

(** A mixed chain; [//] does not bind weaker than [/]. *)
Example C23_ex : exists p1 p2 p3 a b c d p', parse X0 (str "x = int / tstr // nil / 1") =
  Ok ((Some (NCDDL zeroPos [NRule zeroPos (mkIdent (mkPos [] 0 1 1) (str "x"))
    (NTypeChoice p1 TYPE_CHOICE a (NTypeChoice p2 GROUP_CHOICE b (NTypeChoice p3 TYPE_CHOICE c d))) None]), None), p').
Proof. do 8 eexists. vm_compute. reflexivity. Qed.
