(** Properties C73–C75: the JSON the parse command prints, the configuration files that are
    read, the one that init writes. *)
From Coq Require Import String.
From Verif Require Import Base Utf8 Token Ext Strconv Lexer LexSpec LexSpec2 LexSpec3 LexerProofs LexOne LexSeq LexHang Ast Env Diag Parser ParseSpec ParseStream ParseFacts ParseShape ParseSource
  ParseTree ParseTokens ParseLoose Print Repl Codegen Cli CliProofs Main Props_LexFull Props_Report Props_Ends Props_Cli Props_Main
  Json TreeSpec JsonSpec Utf8Proofs JsonProofs JsonEnc TreeJson ConfigSpec ConfigProofs.
Open Scope string_scope.
Open Scope list_scope.
Open Scope Z_scope.

(** ** C73 *)

(** A token of a source: a literal satisfying [Q], a position in a nameless file on a line. *)
Definition tokOk (Q : bytes -> Prop) (t : tokInfo) : Prop := Q (tLit t) /\ pFile (tPos t) = [] /\ tPos t <> zeroPos.

(** The strings a parser makes itself. *)
Definition plain (Q : bytes -> Prop) : Prop := Q [] /\ forall n, Q (fmtD n).

Lemma newlines_nonneg : forall s, 0 <= newlines s.
Proof. induction s as [|b s IH]; cbn [newlines]; [lia|]. destruct (b =? 10); lia. Qed.

Lemma posAt_ok : forall s k, pFile (posAt s k) = [] /\ posAt s k <> zeroPos.
Proof.
  intros s k. split; [reflexivity|]. intros E. apply (f_equal pLine) in E. change (1 + newlines (firstn k s) = 0) in E. pose proof (newlines_nonneg (firstn k s)). lia.
Qed.

Lemma lexed_bytes : forall X tk text lit rest, Lexed X tk text lit rest -> bytesOk text -> bytesOk lit.
Proof.
  intros X tk text lit rest H HB. unfold bytesOk in *. inversion H; subst; auto; inversion HB; subst; auto.
  - apply Forall_app in H5. tauto.
  - apply Forall_app in H6. tauto.
Qed.

Lemma written_ok : forall X s t, bytesOk s -> (exists k text, written X s k text (tTok t) (tLit t) /\ tPos t = posAt s k) -> bytesOk (tLit t).
Proof.
  intros X s t HB (k & text & (rest & E & HL) & HP). eapply lexed_bytes; eauto. assert (F : bytesOk (skipn k s)) by (rewrite <- (firstn_skipn k s) in HB; apply Forall_app in HB; tauto).
  rewrite E in F. apply Forall_app in F. tauto.
Qed.

Lemma fmt_bytes : forall n, bytesOk (fmtD n).
Proof.
  intros n. destruct (fmt_number n) as (sg & i & f & e & -> & HS & HI & HF & HE). unfold bytesOk.
  assert (D : forall x, digits x -> Forall (fun b => 0 <= b < 256) x) by (intros x H; eapply Forall_impl; [|exact H]; simpl; intros; lia).
  rewrite !Forall_app. repeat split.
  - destruct HS as [-> | ->]; repeat constructor; lia.
  - destruct HI as [-> |(d & r & -> & H1 & H2)]; constructor; try lia; auto.
  - destruct HF as [-> |(ds & -> & _ & HD)]; constructor; [lia|auto].
  - destruct HE as [-> |(b & sg' & ds & -> & HB & HS' & _ & HD)]; constructor; [simpl in HB; lia|]. apply Forall_app. split; auto.
    simpl in HS'. destruct HS' as [<-|[<-|[<-|[]]]]; repeat constructor; lia.
Qed.

Definition nodeOk (Q : bytes -> Prop) (n : node) : Prop := Forall Q (own n) /\ (proper n \/ exists u, n = NUintLiteral u).

Ltac toks := repeat match goal with
  | H : tokOk _ (mkTok _ _ _) |- _ => destruct H as (?HT1 & ?HT2 & ?HT3); cbn [tTok tPos tLit] in *
  | H : tokOk _ _ |- _ => destruct H as (?HT1 & ?HT2 & ?HT3)
  end.

Ltac bytesDone := repeat (apply Forall_cons; [cbn [pFile posTo iPos iName rStart rEnd uPos cPos cText]; first [assumption|match goal with H : pFile _ = [] |- _ => rewrite H; assumption end|assumption|match goal with H : forall n, _ (fmtD n) |- _ => apply H end]|]); try apply Forall_nil.

Lemma atom_ok : forall (Q : bytes -> Prop) X t nx n tk, plain Q -> Atom X t nx n tk -> tokOk Q t -> nodeOk Q n.
Proof.
  intros Q X t nx n tk [QN QF] H HT. destruct H; toks; (split; [cbn [own ownPtr ownUint]; bytesDone|]); cbn [proper]; eauto.
Qed.

Lemma left_ok : forall (Q : bytes -> Prop) X (P : tokInfo -> Prop) T n, LeftShape X P T n -> (forall t, P t -> tokOk Q t) ->
  match n with
  | NIdentifier i => Q (iName i) /\ pFile (iPos i) = []
  | NTstrType p _ | NIntegerLiteral p _ _ => pFile p = []
  | NUintLiteral u => pFile (uPos u) = []
  | _ => True
  end.
Proof.
  intros Q X P T n H HP. inversion H as [n' HS|p w HI]; subst; [|apply HP in HI; toks; auto].
  inversion HS as [t nx m tk HA NX HPt HT| op l t v m tk HI| | | | | | | | | | | |]; subst; auto; [|inversion HI; subst; exact I].
  apply HP in HPt. inversion HA; subst; toks; auto.
Qed.

Lemma upper_ok : forall (Q : bytes -> Prop) t u, Upper t (Some u) -> tokOk Q t -> pFile (uPos u) = [].
Proof. intros Q t u H HT. inversion H; subst. toks. auto. Qed.

Lemma lower_ok : forall (Q : bytes -> Prop) X (P : tokInfo -> Prop) T l u, LeftShape X P T l -> (forall t, P t -> tokOk Q t) -> Lower l u -> pFile (uPos u) = [].
Proof. intros Q X P T l u HL HP H. pose proof (left_ok Q _ _ _ _ HL HP) as K. inversion H; subst; exact K. Qed.

Lemma shape_ok : forall (Q : bytes -> Prop) X (P : tokInfo -> Prop) T n, plain Q -> Shape X P T n -> (forall t, P t -> tokOk Q t) -> nodeOk Q n.
Proof.
  intros Q X P T n HQ H HP. pose proof HQ as [QN QF].
  assert (U : forall t u, Upper t u -> tokOk Q t -> Forall Q (ownPtr ownUint u)).
  { intros t [u|] HU HT; [|constructor]. pose proof (upper_ok Q _ _ HU HT) as E. repeat constructor. rewrite E. exact QN. }
  assert (Z0 : tokOk Q zeroTok -> False) by (intros (_ & _ & K); now apply K).
  inversion H; subst.
  - eapply (atom_ok Q); eauto.
  - match goal with HO : P op, HI : Infix _ _ _ _ _ _, HL : LeftShape _ _ _ _, HPt : P t |- _ => apply HP in HO; apply HP in HPt; pose proof (left_ok Q _ _ _ _ HL HP) as KL; inversion HI; subst end; toks;
      split; cbn [own ownPtr]; try (left; cbn [proper]; auto; fail); bytesDone.
    + repeat (apply Forall_cons; [cbn [fst]; first [rewrite KL; exact QN|rewrite HT2; exact QN|rewrite HT0; exact QN]|]); constructor.
    + apply Forall_app. split; [|eapply U; eauto; repeat split; auto]. repeat constructor. match goal with HW : Lower _ _ |- _ => erewrite (lower_ok Q) by eauto end. exact QN.
  - match goal with HO : P op |- _ => apply HP in HO end. toks. split; [|left; auto]. cbn [own ownPtr].
    match goal with HL : LeftShape _ _ _ _, HK : Key _ _ _ |- _ => pose proof (left_ok Q _ _ _ _ HL HP) as KL; inversion HK; subst end; cbn [iPos iName].
    + destruct KL as [K1 K2]. cbn [app]. bytesDone.
    + cbn [app]. bytesDone.
  - match goal with HO : P op, HC : P c |- _ => apply HP in HO; apply HP in HC end. toks. split; [|left; auto]. cbn [own ownPtr ownComment commentOf app]. unfold ownComment, commentOf.
    match goal with HL : LeftShape _ _ _ _, HK : Key _ _ _ |- _ => pose proof (left_ok Q _ _ _ _ HL HP) as KL; inversion HK; subst end; cbn [iPos iName cPos cText].
    + destruct KL as [K1 K2]. bytesDone.
    + bytesDone.
  - split; [cbn [own]; bytesDone|left; exact I].
  - match goal with HO : P o |- _ => apply HP in HO end. toks. split; [cbn [own]; bytesDone|left; cbn [proper]; auto].
  - match goal with HO : P o |- _ => apply HP in HO end. toks. split; [cbn [own]; bytesDone|left; cbn [proper]; auto].
  - match goal with HO : P o |- _ => apply HP in HO end. toks. split; [cbn [own]; bytesDone|left; cbn [proper]; auto].
  - match goal with HO : P o |- _ => apply HP in HO end. toks. split; [cbn [own]; bytesDone|left; cbn [proper]; auto].
  - match goal with HO : P o |- _ => apply HP in HO end. toks. split; [cbn [own]; bytesDone|left; cbn [proper]; auto].
  - match goal with HO : P o |- _ => apply HP in HO end. toks. split; [cbn [own]; bytesDone|left; cbn [proper]; auto].
  - match goal with HO : P o, HT : P t |- _ => apply HP in HO; apply HP in HT; specialize (U _ _ ltac:(eassumption) HT) end. toks. split; [|left; cbn [proper]; auto].
    cbn [own ownPtr]. unfold ownUint at 1. cbn [uPos app]. bytesDone. exact U.
  - match goal with HO : P o, HT : P t |- _ => apply HP in HO; apply HP in HT; specialize (U _ _ ltac:(eassumption) HT) end. toks. split; [|left; cbn [proper]; auto].
    cbn [own ownPtr]. unfold ownUint at 1. cbn [uPos app]. bytesDone. exact U.
  - match goal with HO : P o |- _ => apply HP in HO end. toks. split; [|left; cbn [proper]; auto]. cbn [own].
    match goal with HG : TagNum _ _ _ _, HF : Forall P num |- _ => inversion HG; subst; inversion HF; subst end; cbn [ownPtr app]; unfold ownUint; cbn [app uPos zeroPos pFile]; repeat match goal with HQ : P (mkTok _ _ _) |- _ => apply HP in HQ end; toks; bytesDone.
Qed.

(** Every node of a returned tree has byte strings and a kind its fields tell. *)
Lemma returned_own : forall (Q : bytes -> Prop) X s e root ds p', plain Q -> decodable s -> (forall ts f, Str X (newLexer s) ts f -> Forall (fun t => Q (tLit t)) ts) -> parseSource X (parseFuel s) s e = Ok ((Some root, ds), p') ->
  forall m, within root m -> Forall Q (own m) /\ proper m.
Proof.
  intros Q X s e root ds p' HQ D HL H m HW. pose proof HQ as [QN QF].
  assert (R : exists rules, root = NCDDL zeroPos rules).
  { unfold parseSource in H. destruct (newParser X (newLexer s) e) as [p| | |]; try discriminate. cbn [rbind] in H. unfold parseFile in H. destruct (errors (lx p)); [|discriminate].
    destruct (fileLoop X (parseFuel s) (parseFuel s) [] p) as [[rules p1]| | |]; try discriminate. cbn [rbind] in H. inversion H; subst. eauto. }
  destruct R as (rules & ->).
  destruct (new_str X s D) as (ts & f & k & HS & HC & _ & HLn & _).
  pose proof (str_written X s _ _ _ HS 0 (newLexer_st s D)) as HT.
  assert (HF : (length ts <= parseFuel s)%nat) by (unfold parseFuel; lia).
  pose proof (source_loose X s e _ ts _ rules ds p' HS HF H) as HR.
  assert (TO : forall t, In t ts -> tokOk Q t).
  { intros t HI. specialize (HL _ _ HS). rewrite Forall_forall in HT, HL. destruct (HT t HI) as (k1 & text & _ & EP). split; auto. rewrite EP. apply posAt_ok. }
  pose proof (loose_shapes X (fun t => In t ts) ts rules HR) as LS.
  specialize (LS ltac:(apply Forall_forall; auto) m HW). destruct LS as [-> |[K|[(p & w & K & ->)|[K|[-> | ->]]]]].
  - split; [repeat (apply Forall_cons; [exact QN|]); apply Forall_nil|reflexivity].
  - inversion K as [c HI HCm|cms NE HI HCm|p w v HI HV|p w v c HI HIc HCm HV]; subst.
    + apply TO in HI. destruct HI as (T1 & T2 & T3). split; [|exact I]. cbn [own]. unfold ownComment, commentOf. cbn [cPos cText]. rewrite T2. repeat (apply Forall_cons; [assumption|]); apply Forall_nil.
    + split; [|exact I]. cbn [own]. apply Forall_forall. intros b HB. apply in_flat_map in HB as (c & HC1 & HB). apply in_map_iff in HC1 as (t & <- & HC1).
      rewrite Forall_forall in HI. destruct (TO _ (HI _ HC1)) as (T1 & T2 & T3). unfold ownComment, commentOf in HB. cbn [cPos cText] in HB. destruct HB as [<-|[<-|[]]]; auto. rewrite T2. exact QN.
    + apply TO in HI. destruct HI as (T1 & T2 & T3). cbn [tPos tLit] in *. split; [|reflexivity]. cbn [own ownPtr iPos iName app zeroPos pFile]. rewrite T2. repeat (apply Forall_cons; [assumption|]); apply Forall_nil.
    + apply TO in HI, HIc. destruct HI as (T1 & T2 & T3), HIc as (T4 & T5 & T6). cbn [tPos tLit] in *. split; [|reflexivity]. cbn [own ownPtr iPos iName app zeroPos pFile]. unfold ownComment, commentOf. cbn [cPos cText].
      rewrite T2, T5. repeat (apply Forall_cons; [assumption|]); apply Forall_nil.
  - apply TO in K. destruct K as (T1 & T2 & T3). cbn [tPos tLit] in *. split; [|reflexivity]. cbn [own ownPtr iPos iName app zeroPos pFile]. rewrite T2. repeat (apply Forall_cons; [assumption|]); apply Forall_nil.
  - apply (shape_ok Q) in K; [|exact HQ|exact TO]. destruct K as [K1 [K2|(u & ->)]]; [auto|]. exfalso. eapply C67_no_uint_nodes; eauto.
  - split; [constructor|exact I].
  - split; [constructor|exact I].
Qed.

Lemma plain_bytes : plain bytesOk.
Proof. split; [constructor|apply fmt_bytes]. Qed.

Lemma lits_bytes : forall X s, decodable s -> forall ts f, Str X (newLexer s) ts f -> Forall (fun t => bytesOk (tLit t)) ts.
Proof.
  intros X s D ts f HS. pose proof (str_written X s _ _ _ HS 0 (newLexer_st s D)) as HT. eapply Forall_impl; [|exact HT]. cbn. intros t HW. eapply written_ok; [apply D|exact HW].
Qed.

Lemma returned_ok : forall X s e root ds p', decodable s -> parseSource X (parseFuel s) s e = Ok ((Some root, ds), p') ->
  forall m, within root m -> Forall bytesOk (own m) /\ proper m.
Proof. intros X s e root ds p' D. apply returned_own; auto using plain_bytes. now apply lits_bytes. Qed.

(** UTF-8 text and its parts. *)
Lemma utf8_ascii : forall s, Forall (fun b => 0 <= b < 128) s -> Utf8Text s.
Proof. intros s H. induction H; constructor; auto. Qed.

Lemma cut_high : forall h s a b c, Forall (fun x => 128 <= x) h -> b < 128 -> h ++ s = a ++ b :: c -> exists a', a = h ++ a' /\ s = a' ++ b :: c.
Proof.
  induction h as [|x h IH]; intros s a b c HF HB E; [exists a; auto|]. inversion HF; subst. destruct a as [|y a]; cbn [app] in E; injection E as -> E; [lia|].
  destruct (IH s a b c) as (a' & -> & ->); auto. exists a'. auto.
Qed.

Lemma encode_all_high : forall r, scalar r -> 128 <= r -> Forall (fun x => 128 <= x) (encodeRune r).
Proof.
  intros r HS HR. destruct (encode_high r HS HR) as (b & t & -> & HB & HT & _). constructor; auto.
Qed.

Lemma utf8_cut : forall s, Utf8Text s -> forall a b c, s = a ++ b :: c -> 0 <= b < 128 -> Utf8Text a /\ Utf8Text c.
Proof.
  intros s H. induction H as [|x s HX HS IH|r s HS HR HT IH]; intros a b c E HB.
  - destruct a; discriminate.
  - destruct a as [|y a]; cbn [app] in E; injection E as -> E; [split; [constructor|now subst]|]. destruct (IH a b c E HB). split; [now constructor|auto].
  - destruct (cut_high _ _ _ _ _ (encode_all_high r HS HR) (proj2 HB) E) as (a' & -> & ->). destruct (IH a' b c eq_refl HB). split; [now constructor|auto].
Qed.

Lemma utf8_drop : forall a s, Forall (fun b => 0 <= b < 128) a -> Utf8Text (a ++ s) -> Utf8Text s.
Proof. induction a as [|b a IH]; intros s HF H; auto. inversion HF; subst. apply IH; auto. now apply (utf8_cut _ H [] b). Qed.

Lemma utf8_step : forall r cs u, Utf8Text (cs ++ u) -> cs <> [] -> decodeRune (cs ++ u) = (r, Z.of_nat (length cs)) -> Utf8Text cs /\ Utf8Text u.
Proof.
  intros r cs u H NE E.
  assert (L : forall x y : bytes, forall v, cs ++ u = x ++ v -> length cs = length x -> cs = x /\ u = v).
  { intros x _ v E1 E2. clear - E1 E2. revert x E1 E2. induction cs as [|b cs IH]; intros [|y x] E1 E2; try discriminate; auto. injection E1 as -> E1. injection E2 as E2. destruct (IH x E1 E2) as [-> ->]. auto. }
  inversion H as [E0|b s HB HS E0|r' s HS HR HT E0].
  - destruct cs; [congruence|discriminate].
  - rewrite <- E0 in E. unfold decodeRune in E. replace (b <? 128) with true in E by lia. inversion E as [[E1 E2]]. destruct (L [b] [] s) as [-> ->]; [now rewrite <- E0|simpl; lia|]. split; auto. repeat constructor; lia.
  - rewrite <- E0, encode_rune in E by auto. injection E as _ E2. destruct (L (encodeRune r') [] s) as [-> ->]; [now rewrite E0|unfold zlen in E2; now apply Nat2Z.inj|]. split; auto.
    rewrite <- (app_nil_r (encodeRune r')). constructor; auto. constructor.
Qed.

Lemma num_utf8 : forall X t rest, Num X t rest -> Utf8Text (t ++ rest) -> Utf8Text t /\ Utf8Text rest.
Proof.
  intros X t rest H. induction H as [rest|r cs t rest NE HD HU HN IH|t rest d u E HD HN IH]; intros HT.
  - split; [constructor|auto].
  - rewrite <- app_assoc in HT. destruct (utf8_step r cs _ HT NE HD) as [A B]. destruct (IH B). split; auto. clear - A H. induction A; cbn [app]; auto; [now constructor|]. rewrite <- app_assoc. now constructor.
  - cbn [app] in HT. apply utf8_drop with (a := [46]) in HT; [|repeat constructor; lia]. destruct (IH HT). split; auto. constructor; [lia|auto].
Qed.

Lemma punct_ascii : forall w tk, In (w, tk) punctTable -> Forall (fun b => 0 <= b < 128) w.
Proof.
  intros w tk H. assert (F : forallb (fun wt => forallb (fun b => (0 <=? b) && (b <? 128)) (fst wt)) punctTable = true) by reflexivity.
  rewrite forallb_forall in F. specialize (F _ H). cbn [fst] in F. rewrite forallb_forall in F. apply Forall_forall. intros b HB. specialize (F b HB). lia.
Qed.

Lemma utf8_bytes : forall s, Utf8Text s -> bytesOk s.
Proof.
  intros s H. induction H as [|b s HB H IH|r s HS HR H IH]; [constructor|constructor; auto; lia|]. apply Forall_app. split; auto.
  destruct HS as [HS NS]. unfold encodeRune, inRangeB.
  pose proof (Z_mod_lt r 64 eq_refl). pose proof (Z_mod_lt (r / 64) 64 eq_refl). pose proof (Z_mod_lt (r / 4096) 64 eq_refl).
  pose proof (Z.div_le_upper_bound r 262144 5 eq_refl). pose proof (Z.div_pos r 262144). pose proof (Z.div_pos r 4096). pose proof (Z.div_pos r 64).
  destruct ((0 <=? r) && (r <? 128)) eqn:E1; [repeat constructor; lia|]. destruct ((0 <=? r) && (r <? 2048)) eqn:E2; [pose proof (Z.div_le_upper_bound r 64 32 eq_refl); repeat constructor; lia|].
  destruct ((r <? 0) || (1114111 <? r) || _) eqn:E3; [repeat constructor; lia|]. destruct (r <? 65536) eqn:E4; [pose proof (Z.div_le_upper_bound r 4096 16 eq_refl)|]; repeat constructor; try lia.
Qed.

(** No line of the source ends in the middle of nowhere: its last byte is ASCII. *)
Definition asciiEnds (s : bytes) : Prop := forall a b c, s = a ++ b :: c -> c = [] \/ hd 0 c = 10 -> 0 <= b < 128.

Lemma lexed_utf8 : forall X tk text lit rest, Lexed X tk text lit rest -> Utf8Text (text ++ rest) -> asciiEnds (text ++ rest) -> Utf8Text lit /\ Utf8Text rest.
Proof.
  intros X tk text lit rest H HT HE.
  assert (A : forall w, Forall (fun b => 0 <= b < 128) w -> Utf8Text (w ++ rest) -> Utf8Text w /\ Utf8Text rest) by (intros w HF HU; split; [now apply utf8_ascii|eapply utf8_drop; eauto]).
  assert (C : forall w (P : Z -> Prop), Forall P w -> (forall b, P b -> 0 <= b < 128) -> Forall (fun b => 0 <= b < 128) w) by (intros w P HF HP; eapply Forall_impl; [|exact HF]; auto).
  destruct H.
  - auto.
  - apply A; auto. constructor; [unfold identStart in *; lia|]. eapply C; eauto. unfold identChar, identStart. intros; lia.
  - apply A; auto. constructor; [lia|]. assert (HB : 0 <= b < 128 /\ forall x, P x -> 0 <= x < 128) by (destruct H; split; unfold LexSpec2.hexDigit, binDigit, octDigit, LexSpec2.digit in *; intros; lia). constructor; [tauto|]. eapply C; eauto. tauto.
  - eapply num_utf8; eauto.
  - eapply num_utf8; eauto.
  - apply A; auto. eapply punct_ascii; eauto.
  - apply A; auto. constructor; [lia|]. eapply C; eauto. unfold letter. intros; lia.
  - cbn [app] in HT. apply utf8_drop with (a := [59]) in HT; [|repeat constructor; lia]. destruct H0 as [-> |H0]; [rewrite app_nil_r in HT; split; auto; constructor|].
    destruct rest as [|c rest]; [discriminate H0|]. cbn [hd] in H0. subst. destruct (utf8_cut _ HT w 10 rest eq_refl ltac:(lia)). split; auto. constructor; [lia|auto].
  - cbn [app] in HT. apply utf8_drop with (a := [34]) in HT; [|repeat constructor; lia]. rewrite <- app_assoc in HT. cbn [app] in HT. apply (utf8_cut _ HT w 34 rest eq_refl). lia.
  - cbn [app] in HT. apply utf8_drop with (a := [34]) in HT; [|repeat constructor; lia]. rewrite <- app_assoc in HT. cbn [app] in HT. apply (utf8_cut _ HT w b rest eq_refl).
    apply (HE (34 :: w) b rest); auto. cbn [app]. now rewrite <- app_assoc.
  - subst cs. eapply utf8_step; eauto. discriminate.
Qed.

Lemma ends_drop : forall a s, asciiEnds (a ++ s) -> asciiEnds s.
Proof. intros a s H x b c E. apply (H (a ++ x) b c). rewrite E. apply app_assoc. Qed.

Lemma str_utf8 : forall X s l ts f, Str X l ts f -> forall k, St s l k -> Utf8Text (skipn k s) -> asciiEnds (skipn k s) -> Forall (fun t => Utf8Text (tLit t)) ts.
Proof.
  intros X s l ts f H. induction H as [l t l' ts f HS HE H IH| |]; intros k HK HU HA; [|constructor|constructor].
  destruct (scan_full X s l k HK) as [[E _]|(g & tk & text & lit & rest & l1 & (N1 & N2 & N3) & E & K & _)]; [congruence|].
  rewrite E in HS. injection HS as <- <-. rewrite N1 in HU, HA.
  apply utf8_drop in HU; [|eapply Forall_impl; [|exact N2]; unfold blank; simpl; intros; lia]. apply ends_drop in HA.
  destruct (lexed_utf8 _ _ _ _ _ N3 HU HA) as [L1 L2]. apply ends_drop in HA. constructor; [exact L1|].
  assert (ES : skipn (k + length g + length text) s = rest) by (rewrite <- !skipn_skipn_add, N1, skipn_len_app; apply skipn_len_app).
  apply (IH _ K); now rewrite ES.
Qed.

Lemma fmt_ascii : forall n, Forall (fun b => 0 <= b < 128) (fmtD n).
Proof.
  intros n. destruct (fmt_number n) as (sg & i & f & e & -> & HS & HI & HF & HE).
  assert (D : forall x, digits x -> Forall (fun b => 0 <= b < 128) x) by (intros x H; eapply Forall_impl; [|exact H]; simpl; intros; lia).
  rewrite !Forall_app. repeat split.
  - destruct HS as [-> | ->]; repeat constructor; lia.
  - destruct HI as [-> |(d & r & -> & H1 & H2)]; constructor; try lia; auto.
  - destruct HF as [-> |(ds & -> & _ & HD)]; constructor; [lia|auto].
  - destruct HE as [-> |(b & sg' & ds & -> & HB & HS' & _ & HD)]; constructor; [simpl in HB; lia|]. apply Forall_app. split; auto.
    simpl in HS'. destruct HS' as [<-|[<-|[<-|[]]]]; repeat constructor; lia.
Qed.

Lemma decodable_utf8 : forall s, decodable s -> Utf8Text s.
Proof.
  intros s [HB H]. induction H as [|s r w NE E NR H IH]; [constructor|].
  pose proof (decode_nonneg s r w HB E NR) as NN. destruct (decode_rune _ _ _ E) as [(u & EU & EW) K]; [intros [K _]; auto|auto|].
  assert (ES : skipn (Z.to_nat w) s = u) by (rewrite EU, EW; unfold zlen; rewrite Nat2Z.id; apply skipn_len_app).
  rewrite ES in IH. assert (HU : bytesOk u) by (rewrite EU in HB; apply Forall_app in HB; tauto). specialize (IH HU). rewrite EU.
  destruct (Z_lt_ge_dec r 128) as [L|L].
  - unfold encodeRune. replace ((0 <=? r) && (r <? 128)) with true by lia. constructor; auto.
  - destruct K as [K|[K1 K2]]; [lia|]. constructor; auto. lia.
Qed.

(** The strings of the tree are UTF-8. *)
Lemma returned_utf8 : forall X s e root ds p', decodable s -> asciiEnds s -> parseSource X (parseFuel s) s e = Ok ((Some root, ds), p') ->
  forall m, within root m -> Forall Utf8Text (own m) /\ proper m.
Proof.
  intros X s e root ds p' D HA. apply returned_own; auto.
  - split; [constructor|]. intros n. apply utf8_ascii, fmt_ascii.
  - intros ts f HS. eapply str_utf8; [exact HS|now apply newLexer_st| |]; auto. now apply decodable_utf8.
Qed.

(** A text is read as at most one document of bounded depth. *)
Lemma value_unique : forall t v w, Value t v -> Value t w -> nesting v <= 10000 -> nesting w <= 10000 -> v = w.
Proof.
  intros t v w HV HW NV NW. assert (E : forall x, Value t x -> nesting x <= 10000 -> firstValue t = Some x).
  { intros x HX NX. rewrite <- (app_nil_r t). apply (firstValue_complete [] t x []); auto; [constructor|intros; exact I]. }
  pose proof (E v HV NV). pose proof (E w HW NW). congruence.
Qed.

(** *** Theorems *)

(** The document of what the parser returned. *)
Definition DocOf (J : JsonExt) (root : option node) (v : json) : Prop := match root with Some n => Doc J n v | None => v = JNull end.

Lemma root_doc : forall J root v, rootJson J root = Some v <-> DocOf J root v.
Proof. intros J [n|] v; [apply tree_exact|]. cbn. split; congruence. Qed.

(** What is printed is JSON, and read back it is the document of the tree, with U+FFFD for
    bytes that are not UTF-8. *)
Theorem C73_printed : forall X J s root ds p t, decodable s -> parse X s = Ok ((root, ds), p) -> numbersOk J -> marshalTree J root = Some t ->
  exists v v', DocOf J root v /\ Repaired v v' /\ Value t v' /\ nesting v <= 10000.
Proof.
  intros X J s root ds p t D HP HJ HM. unfold marshalTree in HM. destruct (rootJson J root) as [v|] eqn:EV; [|discriminate].
  destruct (depth v <=? maxNesting) eqn:ED; [|discriminate]. injection HM as <-. rewrite depth_nesting in ED. unfold maxNesting in ED.
  assert (HW : Writable v).
  { destruct root as [n|]; cbn [rootJson] in EV; [|injection EV as <-; constructor]. eapply tree_writable; eauto. intros m HI. eapply returned_ok; eauto. }
  destruct (pretty_value (jShort J) v HW 0) as (v' & HR & HV). exists v, v'. rewrite indent_pretty by auto. split; [now apply root_doc|]. repeat split; auto. lia.
Qed.

(** Nothing is printed only if a number is not finite or the document too deep. *)
Theorem C73_fails : forall J root, marshalTree J root = None <->
  (exists n r t b, root = Some n /\ within n (NFloatLiteral r t b) /\ jFloat J b = None) \/ (exists v, DocOf J root v /\ 10000 < nesting v).
Proof.
  intros J root. unfold marshalTree. destruct (rootJson J root) as [v|] eqn:EV.
  - rewrite depth_nesting. unfold maxNesting. destruct (nesting v <=? 10000) eqn:ED.
    + split; [discriminate|]. intros [(n & r & t & b & -> & HW & HN)|(w & HD & HN)].
      * assert (K : treeJson J n = None) by (apply tree_none; eauto). cbn [rootJson] in EV. congruence.
      * apply root_doc in HD. assert (w = v) by congruence. subst. lia.
    + split; auto. intros _. right. exists v. split; [now apply root_doc|lia].
  - split; auto. intros _. left. destruct root as [n|]; [|discriminate]. apply tree_none in EV as (r & t & b & HW & HN). exists n, r, t, b. auto.
Qed.

(** Whoever parses two sources whose lines end in ASCII and prints the same for both has
    parsed the same tree: the text tells the tree. *)
Theorem C73_text_tells_tree : forall X1 X2 J s1 s2 n1 n2 ds1 ds2 p1 p2 t, decodable s1 -> decodable s2 -> asciiEnds s1 -> asciiEnds s2 ->
  parse X1 s1 = Ok ((Some n1, ds1), p1) -> parse X2 s2 = Ok ((Some n2, ds2), p2) -> numbersOk J -> floatsApart J ->
  marshalTree J (Some n1) = Some t -> marshalTree J (Some n2) = Some t -> untyped n1 = untyped n2.
Proof.
  intros X1 X2 J s1 s2 n1 n2 ds1 ds2 p1 p2 t D1 D2 A1 A2 H1 H2 HJ HF M1 M2.
  destruct (C73_printed _ _ _ _ _ _ _ D1 H1 HJ M1) as (v1 & v1' & V1 & R1 & T1 & L1). destruct (C73_printed _ _ _ _ _ _ _ D2 H2 HJ M2) as (v2 & v2' & V2 & R2 & T2 & L2).
  assert (E : v1' = v2') by (apply (value_unique t); auto; [now rewrite (repaired_nesting _ _ R1)|now rewrite (repaired_nesting _ _ R2)]). subst v2'.
  assert (U : forall X s n ds p v v', decodable s -> asciiEnds s -> parse X s = Ok ((Some n, ds), p) -> Doc J n v -> Repaired v v' -> v = v').
  { intros X s n ds p v v' D A H HD HR. apply repaired_id; auto. apply tree_exact in HD. revert v HD HR. intros v HD _. revert v HD. apply (tree_all Utf8Text); auto.
    - intros k HK. apply utf8_ascii. unfold asciiB in HK. rewrite forallb_forall in HK. apply Forall_forall. intros b HB. specialize (HK b HB). lia.
    - intros m HI. eapply returned_utf8; eauto. }
  pose proof (U _ _ _ _ _ _ _ D1 A1 H1 V1 R1) as E1. pose proof (U _ _ _ _ _ _ _ D2 A2 H2 V2 R2) as E2. subst v1' v2. apply tree_exact in V1, V2.
  apply (tree_determined J HF); [intros m HI; eapply returned_ok; [exact D1|exact H1|exact HI]|intros m HI; eapply returned_ok; [exact D2|exact H2|exact HI]|congruence|congruence].
Qed.

(** The command prints that text. *)
Theorem C73_command : forall X J C O f a s root ds p t, readFile O f a = Some s -> decodable s -> parse X s = Ok ((root, ds), p) -> numbersOk J -> marshalTree J root = Some t ->
  exists outs v v', parseCmd X (withJson J C) O f [a] = (outs, Some t, Success) /\ DocOf J root v /\ Repaired v v' /\ Value t v'.
Proof.
  intros X J C O f a s root ds p t HR D HP HJ HM. destruct (C62_status X (withJson J C) O f a s root ds p t HR D HP HM) as (outs & HC & _).
  destruct (C73_printed _ _ _ _ _ _ _ D HP HJ HM) as (v & v' & H1 & H2 & H3 & _). exists outs, v, v'. auto.
Qed.

(** *** Examples *)

Definition sampleJson : JsonExt := mkJson (fun b => Some (fmtD b)) true (fun _ => true) (fun _ => None).

Lemma sample_numbers : numbersOk sampleJson.
Proof. intros b t E. injection E as <-. apply fmt_number. Qed.

Lemma sample_apart : floatsApart sampleJson.
Proof. intros a b t H1 H2. cbn in H1, H2. apply jInt_inj. unfold jInt. congruence. Qed.

Definition rootOf (s : bytes) : option node := match parse Props_Lexer.X0 s with Ok ((root, _), _) => root | _ => None end.

(** [a = "<é"], with the é in UTF-8: the < is escaped, the é is not. *)
Definition tellSrc : bytes := str "a = ""<" ++ [195; 169] ++ str """".

Example C73_ex : option_map (fun t => List.filter (fun b => negb (isWs b)) t) (marshalTree sampleJson (rootOf tellSrc)) = Some (str
  "{""Pos"":{""Filename"":"""",""Offset"":0,""Line"":0,""Column"":0},""Rules"":[{""Pos"":{""Filename"":"""",""Offset"":0,""Line"":0,""Column"":0},""Name"":{""Pos"":{""Filename"":"""",""Offset"":0,""Line"":1,""Column"":1},""Name"":""a""},""Value"":{""Pos"":{""Filename"":"""",""Offset"":4,""Line"":1,""Column"":5},""Token"":16,""Literal"":""\u003c" ++ [195; 169] ++ str """},""TrailingComment"":null}]}").
Proof. vm_compute. reflexivity. Qed.

Example C73_ex_holds : decodable tellSrc /\ asciiEnds tellSrc /\ exists n ds p, parse Props_Lexer.X0 tellSrc = Ok ((Some n, ds), p) /\ exists t, marshalTree sampleJson (Some n) = Some t.
Proof.
  split; [split; [repeat constructor; lia|repeat (eapply Dec_rune; [discriminate|reflexivity|discriminate|]; cbn [skipn]); constructor]|]. split.
  - intros a b c E [-> |HC].
    + apply (f_equal (fun l => last l 0)) in E. rewrite last_last in E. vm_compute in E. lia.
    + exfalso. assert (F : ~ In 10 tellSrc) by (vm_compute; intuition discriminate). apply F. rewrite E. destruct c as [|x c]; [discriminate HC|]. cbn [hd] in HC. subst. apply in_or_app. simpl. auto.
  - do 3 eexists. split; [vm_compute; reflexivity|]. eexists. vm_compute. reflexivity.
Qed.

(** When a line may end anywhere, an unfinished text literal loses the last byte of a rune,
    and the text tells less: two unfinished literals of the runes U+20AC and U+20C0 make
    different trees but print the same. *)
Theorem C73_text_refuted : exists s1 s2 n1 n2 ds1 ds2 p1 p2 t, decodable s1 /\ decodable s2 /\
  parse Props_Lexer.X0 s1 = Ok ((Some n1, ds1), p1) /\ parse Props_Lexer.X0 s2 = Ok ((Some n2, ds2), p2) /\
  marshalTree sampleJson (Some n1) = Some t /\ marshalTree sampleJson (Some n2) = Some t /\ untyped n1 <> untyped n2.
Proof.
  exists (str "a = """ ++ [226; 130; 172]), (str "a = """ ++ [226; 131; 128]). do 7 eexists.
  split; [split; [repeat constructor; lia|repeat (eapply Dec_rune; [discriminate|reflexivity|discriminate|]; cbn [skipn]); constructor]|].
  split; [split; [repeat constructor; lia|repeat (eapply Dec_rune; [discriminate|reflexivity|discriminate|]; cbn [skipn]); constructor]|].
  split; [vm_compute; reflexivity|]. split; [vm_compute; reflexivity|]. split; [vm_compute; reflexivity|]. split; [vm_compute; reflexivity|]. vm_compute. discriminate.
Qed.

(** ** C74 *)

(** A JSON configuration is read exactly if the text starts, after blanks, with a JSON
    value that is a configuration; what comes after that value does not matter. *)
Theorem C74_reads : forall J s c, decodeConfig J s = Some c <->
  exists a t rest v, s = a ++ t ++ rest /\ blanks a /\ Value t v /\ nesting v <= 10000 /\ ConfigOf J v c.
Proof.
  intros J s c. split.
  - unfold decodeConfig. destruct (firstValue s) as [v|] eqn:EV; [|discriminate]. intros E. apply firstValue_sound in EV as (a & t & rest & HA & -> & HV & HN).
    exists a, t, rest, v. repeat split; auto. now apply config_iff.
  - intros (a & t & rest & v & -> & HA & HV & HN & HC). unfold decodeConfig. rewrite (firstValue_complete a t v rest); auto.
    + now apply config_iff.
    + intros HI. exfalso. destruct HC, HI; discriminate.
Qed.

(** At most one configuration. *)
Theorem C74_functional : forall J v c c', ConfigOf J v c -> ConfigOf J v c' -> c = c'.
Proof. intros J v c c' H H'. apply config_iff in H, H'. congruence. Qed.

(** The command that reads it. *)
Theorem C74_command : forall J C O f dir s c, Listable O f dir -> First f dir (str "cddlc.json") -> readFile O f (dir ++ [str "cddlc.json"]) = Some s ->
  (loadConfigFromDir (withJson J C) O f dir = inr (Some c) <->
   exists a t rest v, s = a ++ t ++ rest /\ blanks a /\ Value t v /\ nesting v <= 10000 /\ ConfigOf J v c).
Proof.
  intros J C O f dir s c HL HF HR. rewrite (proj2 (C44_first (withJson J C) O f dir HL) _ HF), <- C74_reads. unfold loadConfig, readFile in *.
  destruct (oRead O (dir ++ [str "cddlc.json"]) || blocked f (dir ++ [str "cddlc.json"])); [discriminate|]. destruct (look f (dir ++ [str "cddlc.json"])) as [[x|]|]; try discriminate.
  injection HR as ->. cbv zeta. rewrite last_last. change (beq (str "cddlc.json") (str "cddlc.json")) with true. cbn [cJson withJson].
  destruct (decodeConfig J s) as [c'|]; split; congruence.
Qed.

(** A file that is no JSON, or not a configuration, stops generation before anything is
    written. *)
Theorem C74_refused : forall X J C O f dir s, Listable O f dir -> First f dir (str "cddlc.json") -> readFile O f (dir ++ [str "cddlc.json"]) = Some s ->
  (forall a t rest v c, s = a ++ t ++ rest -> blanks a -> Value t v -> nesting v <= 10000 -> ~ ConfigOf J v c) ->
  exists e, generateCmd X (withJson J C) O (Some dir) f = (f, [], Failure e).
Proof.
  intros X J C O f dir s HL HF HR HN. unfold generateCmd. destruct (loadConfigFromDir (withJson J C) O f dir) as [e|[c|]] eqn:E; [eauto| |].
  - exfalso. apply (C74_command J C O f dir s c HL HF HR) in E as (a & t & rest & v & -> & HA & HV & HNe & HC). eapply HN; eauto.
  - exfalso. apply (proj1 (proj1 (C44_first (withJson J C) O f dir HL)) E (str "cddlc.json")). apply HF.
Qed.

(** ** C75 *)

Definition configUtf8 (c : config) : Prop :=
  Utf8Text (cfVersion c) /\ Forall (fun o => match o with Some b => Utf8Text (bPackage b) /\ Utf8Text (bSource b) /\ Utf8Text (bOut b) | None => True end) (cfBuilds c).

Lemma str_utf8_lit : forall k, asciiB (str k) = true -> Utf8Text (str k).
Proof. intros k HK. apply utf8_ascii. unfold asciiB in HK. rewrite forallb_forall in HK. apply Forall_forall. intros b HB. specialize (HK b HB). lia. Qed.

Lemma config_all : forall c, configUtf8 c -> All Utf8Text (configJson c).
Proof.
  intros c [HV HB].
  assert (K : forall k v, asciiB (str k) = true -> All Utf8Text v -> Utf8Text (fst (str k, v)) /\ All Utf8Text (snd (str k, v))) by (intros k v H1 H2; split; auto; now apply str_utf8_lit).
  unfold configJson. constructor. repeat (apply Forall_cons; [apply K; [reflexivity|]|]); [now constructor|repeat constructor| |constructor|constructor].
  constructor. apply Forall_forall. intros v HI. apply in_map_iff in HI as (o & <- & HI). rewrite Forall_forall in HB. specialize (HB o HI). destruct o as [b|]; [|constructor].
  destruct HB as (H1 & H2 & H3). unfold buildJson. constructor. repeat (apply Forall_cons; [apply K; [reflexivity|]|]); try (now constructor).
Qed.

Lemma config_nesting : forall c, nesting (configJson c) <= 10000.
Proof.
  intros c. unfold configJson. cbn [nesting map fold_right].
  assert (H : 0 <= fold_right Z.max 0 (map nesting (map (fun o => match o with Some b => buildJson b | None => JNull end) (cfBuilds c))) <= 1).
  { induction (cfBuilds c) as [|[b|] l IH]; cbn [map fold_right]; [lia| |cbn [nesting]; lia]. change (nesting (buildJson b)) with 1. lia. }
  lia.
Qed.

Lemma members_here : forall name m, lowerB (str name) = true -> Members name m (mems name m).
Proof. intros. now apply mems_members. Qed.

Lemma text_one : forall name m s, lowerB (str name) = true -> mems name m = [JStr s] -> Text name m s.
Proof. intros name m s L E. apply text_iff; auto. rewrite E. reflexivity. Qed.

Lemma config_of : forall J c, ConfigOf J (configJson c) c.
Proof.
  intros J c. unfold configJson. set (l := map _ (cfBuilds c)). set (m := _ :: _).
  assert (HB : mems "builds" m = [JArr l]) by reflexivity.
  eapply cf_obj; try (apply members_here; reflexivity).
  - now apply text_one.
  - rewrite HB. intros (a & l1 & b & l2 & d & E & _). destruct a as [|x a]; [|destruct a; discriminate]. injection E as _ E. destruct b; discriminate.
  - rewrite HB. apply (bs_arr [] []); [constructor|]. subst l. clear. induction (cfBuilds c) as [|[b|] bs IH]; constructor; auto; [|constructor].
    constructor; now apply text_one.
  - change (mems "plugins" m) with [JArr []]. constructor; [|constructor]. right. exists []. split; auto.
  - change (mems "options" m) with [JNull]. constructor; [left; auto|constructor].
Qed.

(** A configuration that was written is read again as it was. *)
Theorem C75_round_trip : forall J short c rest, configUtf8 c -> decodeConfig J (encodeConfig short c ++ rest) = Some c.
Proof.
  intros J short c rest HU. pose proof (config_all c HU) as HA.
  assert (HW : Writable (configJson c)).
  { apply all_writable. clear - HA. revert HA. generalize (configJson c). induction j using json_rect2; intros HA; inversion HA as [| | |? A1|? A1|? A1]; subst; constructor; auto.
    - now apply utf8_bytes.
    - rewrite Forall_forall in *. auto.
    - rewrite Forall_forall in *. intros a HI. destruct (A1 a HI). split; auto. now apply utf8_bytes. }
  unfold encodeConfig. rewrite indent_pretty by auto. destruct (pretty_value short _ HW 0) as (v' & HR & HV).
  apply (repaired_id _ _ HA) in HR. subst v'. apply C74_reads. exists [], (pretty short 0 (configJson c)), ([10] ++ rest), (configJson c).
  split; [now rewrite <- app_assoc|]. split; [constructor|]. split; auto. split; [apply config_nesting|apply config_of].
Qed.

(** What init writes is the default configuration in this encoding. *)
Theorem C75_init_text : forall short, configText = encodeConfig short defaultConfig.
Proof. intros []; reflexivity. Qed.

(** After init, generate uses the default build, unless another candidate comes first. *)
Theorem C75_init_generate : forall X J C O cwd f f', initCmd O (Some cwd) f = (f', Success) -> Listable O f cwd ->
  (forall n, Candidate f cwd n -> blt n (str "cddlc.json") = false) -> oRead O (configPath cwd) = false ->
  generateCmd X (withJson J C) O (Some cwd) f' = generateBuilds X (withJson J C) O cwd [Some (mkBuild [] (str ".") (str "dist/"))] f'.
Proof.
  intros X J C O cwd f f' HI (L1 & L2 & L3 & L4 & L5) HC HR. destruct (C43_creates _ _ _ _ HI) as (N & E & U).
  assert (NC : cwd <> configPath cwd) by (intros K; apply (f_equal (@length bytes)) in K; unfold configPath in K; rewrite app_length in K; simpl in K; lia).
  assert (P : forall a c r, cwd = a ++ c :: r -> a <> configPath cwd).
  { intros a c r E1 E2. apply (f_equal (@length bytes)) in E1, E2. unfold configPath in E2. rewrite app_length in E1, E2. simpl in E1, E2. lia. }
  assert (L : Listable O f' cwd).
  { repeat split; auto; [rewrite U; auto|]. rewrite <- L3. apply blocked_same. intros a c r E1. apply U. eapply P; eauto. }
  assert (HF : First f' cwd (str "cddlc.json")).
  { split; [split; [fold (configPath cwd); congruence|now exists (str "json")]|]. intros m [M1 M2]. destruct (list_eq_dec Z.eq_dec m (str "cddlc.json")) as [->|NM]; auto. right.
    rewrite U in M1 by (intros K; apply NM; unfold configPath in K; now apply app_inj_tail in K). specialize (HC m (conj M1 M2)). destruct (blt_total m (str "cddlc.json")) as [K|[K|K]]; auto; congruence. }
  assert (B : blocked f' (configPath cwd) = false).
  { assert (B0 : blocked f (configPath cwd) = false).
    { unfold initCmd, statP in HI. fold (configPath cwd) in HI. destruct (oStat O (configPath cwd)); [discriminate|]. destruct (blocked f (configPath cwd)); [discriminate|auto]. }
    rewrite <- B0. apply blocked_same. intros a c r E1. apply U. intros ->. apply (f_equal (@length bytes)) in E1. rewrite app_length in E1. simpl in E1. lia. }
  assert (E2 : loadConfigFromDir (withJson J C) O f' cwd = inr (Some defaultConfig)).
  { rewrite (proj2 (C44_first (withJson J C) O f' cwd L) _ HF). fold (configPath cwd). unfold loadConfig. rewrite HR, B, E. cbn [orb]. cbv zeta. unfold configPath. rewrite last_last.
    change (beq (str "cddlc.json") (str "cddlc.json")) with true. cbn [cJson withJson]. rewrite (C75_init_text true), <- (app_nil_r (encodeConfig true defaultConfig)), C75_round_trip; auto.
    split; [apply utf8_ascii; repeat constructor; lia|]. constructor; [|constructor]. split; [|split]; apply utf8_ascii; repeat constructor; lia. }
  unfold generateCmd. rewrite E2. reflexivity.
Qed.

(** *** Examples *)

(** Any case, unknown members, the last string, null in between, text after the value. *)
Example C74_ex : decodeConfig sampleJson (str " {""VERSION"": ""2"", ""x"": [1e9], ""version"": ""3"", ""Version"": null, ""builds"": [null, {""SRC"": ""a"", ""output"": null}]} trailing") =
  Some (mkConfig (str "3") [None; Some (mkBuild [] (str "a") [])]).
Proof. vm_compute. reflexivity. Qed.

(** A number for a string, a comma too many, an array, an unfinished text, nothing at all. *)
Example C74_ex_refused : map (decodeConfig sampleJson) [str "{""version"": 1}"; str "{""version"": ""1"",}"; str "[]"; str "{""version"": ""1"; []] = [None; None; None; None; None].
Proof. vm_compute. reflexivity. Qed.

Example C75_ex : let '(f1, oc1) := initCmd noRefusals (Some home) sampleFs in oc1 = Success /\
  loadConfigFromDir (withJson sampleJson sampleCli) noRefusals f1 home = inr (Some defaultConfig).
Proof. vm_compute. auto. Qed.
