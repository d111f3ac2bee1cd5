(** Property C86: accepted sources one after the other are an accepted source. *)
From Coq Require Import String.
From Verif Require Import Base Utf8 Token Strconv Ext Lexer LexSpec LexSpec2 LexSpec3 LexerProofs LexOne LexSeq LexWords Ast Env Diag Doc DocText Parser ParseSpec ParseStream ParseFacts
  ParseFrame ParseTop ParseSource ParseTree ParseLayout ParseLocal ParseConcat Props_Lexer Props_LexFull Props_Parser Props_Layout Props_Append.
Open Scope string_scope.
Open Scope list_scope.
Open Scope Z_scope.

(** ** Tokens *)

(** Blanks with the lines of [a]. *)
Definition blot (a : bytes) : bytes := map (fun c => if c =? 10 then 10 else 32) a.

Lemma blot_blank : forall a, allBlank (blot a).
Proof. intros a. unfold allBlank, blot. apply Forall_map. apply Forall_forall. intros c _. unfold blank. destruct (c =? 10); auto. Qed.

Lemma since_app : forall a b n, sinceNewline (a ++ b) n = sinceNewline b (sinceNewline a n).
Proof. induction a as [|c a IH]; intros b n; cbn [app sinceNewline]; auto. Qed.

Lemma blot_newlines : forall a, newlines (blot a) = newlines a.
Proof. induction a as [|c a IH]; [reflexivity|]. cbn [blot map newlines]. fold (blot a). rewrite IH. destruct (c =? 10) eqn:E; reflexivity. Qed.

Lemma blot_since : forall a n, sinceNewline (blot a) n = sinceNewline a n.
Proof. induction a as [|c a IH]; intros n; [reflexivity|]. cbn [blot map sinceNewline]. fold (blot a). rewrite IH. destruct (c =? 10) eqn:E; reflexivity. Qed.

Lemma blot_pos : forall a r j, (length a <= j)%nat -> posAt (a ++ r) j = posAt (blot a ++ r) j.
Proof.
  intros a r j L. unfold posAt. assert (LB : length (blot a) = length a) by apply map_length.
  rewrite !firstn_app, LB, (firstn_all2 a), (firstn_all2 (blot a)) by lia. rewrite !newlines_app, !since_app, blot_newlines, blot_since. reflexivity.
Qed.

Section Agree.
Variable X : Ext.

Definition agree (l1 l2 : lexer) : Prop := forall n, match scans X n l1, scans X n l2 with
  | Ok (a, _), Ok (b, _) => a = b
  | Panic, Panic => True
  | _, _ => False
  end.

Lemma agree_step : forall l1 l2 t l1' l2', scan X l1 = Ok (t, l1') -> scan X l2 = Ok (t, l2') -> agree l1' l2' -> agree l1 l2.
Proof.
  intros l1 l2 t l1' l2' E1 E2 A [|n]; cbn [scans]; auto. rewrite E1, E2. cbn [rbind]. specialize (A n).
  destruct (scans X n l1') as [[? ?]| | |], (scans X n l2') as [[? ?]| | |]; cbn [rbind]; auto; congruence.
Qed.

Lemma agree_aligned : forall n s1 s2 l1 l2 k, St s1 l1 k -> St s2 l2 k -> skipn k s1 = skipn k s2 -> (forall j, (k <= j)%nat -> posAt s1 j = posAt s2 j) ->
  match scans X n l1, scans X n l2 with
  | Ok (a, _), Ok (b, _) => a = b
  | Panic, Panic => True
  | _, _ => False
  end.
Proof.
  induction n as [|n IH]; intros s1 s2 l1 l2 k S1 S2 E P; cbn [scans]; auto.
  destruct (scan_full_err X _ _ _ S1) as [[F1 N1]|(g & tk & text & lit & rest & m1 & N1 & B1 & LX & F1 & T1 & _ & _ & _)];
  destruct (scan_full_err X _ _ _ S2) as [[F2 N2]|(g2 & tk2 & text2 & lit2 & rest2 & m2 & N2 & B2 & LX2 & F2 & T2 & _ & _ & U)]; rewrite F1, F2; cbn [rbind]; auto.
  - exfalso. rewrite <- E in N2. exact (N1 _ _ _ _ _ N2 B2 LX2).
  - exfalso. rewrite E in N1. exact (N2 _ _ _ _ _ N1 B1 LX).
  - rewrite E in N1. destruct (U _ _ _ _ _ N1 B1 LX) as (-> & -> & -> & -> & ->).
    assert (I := IH s1 s2 m1 m2 _ T1 T2). rewrite (P _ (Nat.le_add_r k (length g2))).
    assert (II : match scans X n m1, scans X n m2 with Ok (a, _), Ok (b, _) => a = b | Panic, Panic => True | _, _ => False end).
    { apply I; [|intros j Hj; apply P; lia]. rewrite <- Nat.add_assoc, <- app_length, !(skipn_more _ k (g2 ++ text2) rest2); rewrite <- ?app_assoc; auto; congruence. }
    destruct (scans X n m1) as [[? ?]| | |], (scans X n m2) as [[? ?]| | |]; cbn [rbind]; auto; congruence.
Qed.

Lemma str_agree : forall l2 ts eof, Str X l2 ts (FEof eof) -> forall l1, agree l1 l2 -> Str X l1 ts (FEof eof).
Proof.
  intros l2 ts eof H. remember (FEof eof) as f. induction H as [l t l' ts f HS HE HR IH|l HS|l t HE HQ]; intros l1 A; subst; try discriminate.
  - pose proof (A 1%nat) as A1. cbn [scans] in A1. rewrite HS in A1. cbn [rbind] in A1. destruct (scan X l1) as [[t1 l1']| | |] eqn:E1; cbn [rbind] in A1; try contradiction. injection A1 as ->.
    apply Str_tok with l1'; auto. apply IH; auto. intros n. specialize (A (S n)). cbn [scans] in A. rewrite HS, E1 in A. cbn [rbind] in A.
    destruct (scans X n l1') as [[? ?]| | |], (scans X n l') as [[? ?]| | |]; cbn [rbind] in A; auto; congruence.
  - apply Str_eof; auto. intros n. destruct (HQ n) as [l' K]. specialize (A n). rewrite K in A. destruct (scans X n l1) as [[? l2]| | |]; try contradiction. exists l2. congruence.
Qed.

Lemma str_app : forall ts l l1 us f, scans X (length ts) l = Ok (ts, l1) -> Forall (fun t => tTok t <> EOF) ts -> Str X l1 us f -> Str X l (ts ++ us) f.
Proof.
  induction ts as [|t ts IH]; intros l l1 us f H N S; cbn [length scans app] in *; [congruence|].
  destruct (scan X l) as [[t' l']| | |] eqn:E; try discriminate H. cbn [rbind] in H. destruct (scans X (length ts) l') as [[w l2]| | |] eqn:E2; try discriminate H. cbn [rbind] in H.
  injection H as -> -> ->. apply Str_tok with l'; auto; [now apply Forall_inv in N|]. eapply IH; eauto. now apply Forall_inv_tail in N.
Qed.

Lemma str_first : forall l us eof, Str X l us (FEof eof) -> exists l', scan X l = Ok (nextOf us eof, l').
Proof.
  intros l us eof H. destruct us as [|u us]; [destruct (str_eof_next _ _ _ H) as (l' & K & _); eauto|]. inversion H; subst. cbn. eauto.
Qed.
End Agree.

(** ** Lexer errors *)

Lemma scan_noerr : forall X s l k t l1, St s l k -> scan X l = Ok (t, l1) -> tTok t <> TEXT_LITERAL -> errors l1 = errors l /\ exists k1, St s l1 k1.
Proof.
  intros X s l k t l1 HS E N. destruct (scan_full_err X _ _ _ HS) as [[K _]|(g & tk & text & lit & rest & l2 & N1 & B1 & LX & F1 & T1 & _ & ER & _)]; [congruence|].
  rewrite F1 in E. injection E as <- <-. cbn [tTok] in N. split; [|eauto]. destruct ER as [[_ ER]|[(a & A1 & -> & _) _]]; auto. exfalso. apply N.
  inversion LX; subst; auto; try (match goal with K : identStart 34 |- _ => unfold identStart in K; lia | K : digit 34 |- _ => unfold digit in K; lia end).
  - match goal with K : In _ punctTable |- _ => cbn in K; repeat (destruct K as [K|K]; [discriminate K|]); contradiction end.
  - congruence.
Qed.

Lemma file_two : forall X ts eof rules tk defs, File X ts eof rules tk defs -> tTok eof = EOF ->
  tTok (nth 0 ts eof) <> TEXT_LITERAL /\ tTok (nth 1 ts eof) <> TEXT_LITERAL.
Proof.
  intros X ts eof rules tk defs H E. assert (A : forall t, assignTok t -> t <> TEXT_LITERAL) by (intros t [->|[->| ->]]; discriminate).
  inversion H as [|c cms ts1 ? ? ? ? HC HN HF| |]; subst; cbn [nth app tTok]; try (split; [discriminate|auto]).
  - rewrite E. split; discriminate.
  - inversion HC as [|? ? C1 C2]; subst. rewrite C1. split; [discriminate|]. destruct cms as [|c2 cms]; cbn [app nth].
    + destruct (file_first _ _ _ _ _ _ HF E) as (P & _). destruct ts1; cbn [nth nextOf hd] in *; [rewrite E; discriminate|].
      intros K. inversion HF; subst; cbn in *; try discriminate. match goal with Q : Forall commentTok _ |- _ => apply Forall_inv in Q; unfold commentTok in Q; congruence end.
    + apply Forall_inv in C2. rewrite C2. discriminate.
Qed.

Lemma two_noerr : forall X s ts eof, decodable s -> Str X (newLexer s) ts (FEof eof) -> tTok (nth 0 ts eof) <> TEXT_LITERAL -> tTok (nth 1 ts eof) <> TEXT_LITERAL ->
  exists t2 l2, scans X 2 (newLexer s) = Ok (t2, l2) /\ errors l2 = [].
Proof.
  intros X s ts eof D HS N0 N1. pose proof (newLexer_st s D) as S0.
  assert (E0 : errors (newLexer s) = []) by (destruct (newLexer_at s D) as (_ & -> & _); reflexivity).
  assert (K : exists l1 l2, scan X (newLexer s) = Ok (nth 0 ts eof, l1) /\ scan X l1 = Ok (nth 1 ts eof, l2)).
  { destruct ts as [|t ts]; cbn [nth].
    - destruct (str_eof_next _ _ _ HS) as (l1 & K1 & H1). destruct (str_eof_next _ _ _ H1) as (l2 & K2 & _). eauto.
    - inversion HS as [? ? l1 ? ? K1 K2 K3| |]; subst. destruct (str_first _ _ _ _ K3) as (l2 & K4). exists l1, l2. split; auto. now destruct ts. }
  destruct K as (l1 & l2 & K1 & K2). destruct (scan_noerr _ _ _ _ _ _ S0 K1 N0) as (E1 & k1 & S1). destruct (scan_noerr _ _ _ _ _ _ S1 K2 N1) as (E2 & _).
  eexists _, l2. cbn [scans]. rewrite K1. cbn [rbind]. rewrite K2. cbn [rbind]. split; [reflexivity|congruence].
Qed.

(** ** Checks in a larger environment *)

Lemma check_more : forall e d tk, closed tk -> (forall w, bound d w -> ~ bound e w -> hd 0 w <> 36) -> Forall (CheckOk e) tk -> Forall (CheckOk (e ++ d)) tk.
Proof.
  intros e d tk CL HS H. rewrite Forall_forall in *. intros t Ht. pose proof (H t Ht) as K.
  assert (UB : forall i, known tk i -> ~ bound e (iName i) -> ~ bound (e ++ d) (iName i)).
  { intros i [K1|[p K1]] NB B.
    - unfold bound in B. rewrite names_app in B. apply in_app_or in B as [B|B]; [contradiction|]. exact (HS _ B NB K1).
    - apply H in K1. inversion K1; subst. contradiction. }
  inversion K; subst.
  - apply Ck_exists. unfold bound in *. rewrite names_app. apply in_or_app. auto.
  - eapply Ck_int. eapply assoc_app1; eauto.
  - eapply Ck_float. eapply assoc_app1; eauto.
  - now apply Ck_other.
  - destruct (CL _ _ _ Ht) as [K1 K2]. apply Ck_unbound; auto.
  - eapply Ck_same; eauto; eapply assoc_app1; eauto.
Qed.

(** ** C86 *)

Lemma bare_names : forall e e', map bareDef e = map bareDef e' -> names e = names e'.
Proof.
  intros e e' H. unfold names. apply (f_equal (map fst)) in H. rewrite !map_map in H. exact H.
Qed.

Lemma strip_joinable : forall ra rb rb', map strip rb = map strip rb' -> joinable ra rb -> joinable ra rb'.
Proof.
  intros ra rb rb' E [J1 J2]. split; auto. intros H. specialize (J2 H). destruct rb as [|r rb], rb' as [|r' rb']; try discriminate E; auto. cbn [hd map] in *. injection E as E _.
  destruct r; destruct r'; cbn [strip isComment] in *; try discriminate; auto.
Qed.

(** How a source begins, and the same after blanks with the lines of another one. *)
Lemma reflow_blot : forall X a b tb eb, decodable b -> Str X (newLexer b) tb (FEof eb) -> Reflow X true b (blot a ++ 10 :: b).
Proof.
  intros X a b tb eb DB TB. destruct (str_first _ _ _ _ TB) as (lb & SB).
  destruct (scan_full_err X _ _ _ (newLexer_st _ DB)) as [[K _]|(g & tk & text & lit & rest & l1 & NB & BG & LX & _)]; [congruence|]. cbn [skipn] in NB.
  assert (EZ : blot a ++ 10 :: b = (blot a ++ 10 :: g) ++ text ++ rest) by (rewrite NB, <- app_assoc; reflexivity). rewrite EZ. rewrite NB at 1.
  assert (BZ : allBlank (blot a ++ 10 :: g)) by (apply Forall_app; split; [apply blot_blank|]; constructor; [unfold blank; auto|exact BG]).
  destruct text as [|c text].
  - rewrite (lexed_nil _ _ _ _ LX), !app_nil_r. now apply rf_end.
  - eapply rf_lexeme; eauto; [discriminate|discriminate|]. apply reflow_refl. rewrite NB in DB. apply good_drop in DB; auto. eapply lexed_good; eauto.
Qed.

Lemma decodable_join : forall a b, decodable a -> decodable b -> decodable (a ++ 10 :: b) /\ decodable (blot a ++ 10 :: b).
Proof.
  intros a b DA DB. assert (DT : decodable (10 :: b)) by (apply (good_app [10] b); [now apply good_by_ascii|exact DB]).
  split; apply good_app; auto. apply good_blank, blot_blank.
Qed.

(** The tokens of two sources on lines after each other. *)
Lemma joined_tokens : forall X a b ta ea tb eb us ez, decodable a -> decodable b -> Str X (newLexer a) ta (FEof ea) -> Str X (newLexer b) tb (FEof eb) ->
  Str X (newLexer (blot a ++ 10 :: b)) us (FEof ez) ->
  Str X (newLexer (a ++ 10 :: b)) (ta ++ us) (FEof ez) /\ offLine ta (nextOf us ez).
Proof.
  intros X a b ta ea tb eb us ez DA DB TA TB TZ. destruct (decodable_join a b DA DB) as [DS DZ].
  set (s := a ++ 10 :: b) in *. set (z := blot a ++ 10 :: b) in *. destruct (str_first _ _ _ _ TB) as (lb & SB).
  destruct (scan_full_err X _ _ _ (newLexer_st _ DB)) as [[K _]|(g & tk & text & lit & rest & l1 & NB & BG & LX & FB & SB1 & _ & _ & _)]; [congruence|]. cbn [skipn] in NB.
  destruct (append_scans X a b ea ta _ _ _ (newLexer_st _ DA) (newLexer_st _ DS) TA) as (lm & HM & k1 & M1 & M2 & M3 & M4). fold s in HM, M1.
  assert (SKS : skipn k1 s = (skipn k1 a ++ 10 :: g) ++ text ++ rest) by (unfold s; rewrite skipn_app, (proj2 (Nat.sub_0_le _ _) M2), NB, <- app_assoc; reflexivity).
  assert (SKZ : skipn 0 z = (blot a ++ 10 :: g) ++ text ++ rest) by (cbn [skipn]; unfold z; rewrite NB, <- app_assoc; reflexivity).
  assert (BS : allBlank (skipn k1 a ++ 10 :: g)) by (apply Forall_app; split; [exact M3|]; constructor; [unfold blank; auto|exact BG]).
  assert (BZ : allBlank (blot a ++ 10 :: g)) by (apply Forall_app; split; [apply blot_blank|]; constructor; [unfold blank; auto|exact BG]).
  destruct (scan_full_err X _ _ _ M1) as [[_ K]|(g1 & tk1 & text1 & lit1 & rest1 & ls & _ & _ & _ & FS & SS & _ & _ & US)]; [exfalso; exact (K _ _ _ _ _ SKS BS LX)|].
  destruct (US _ _ _ _ _ SKS BS LX) as (<- & <- & <- & <- & <-). clear US.
  destruct (scan_full_err X _ _ _ (newLexer_st _ DZ)) as [[_ K]|(g2 & tk2 & text2 & lit2 & rest2 & lz & _ & _ & _ & FZZ & SZZ & _ & _ & UZ)]; [exfalso; exact (K _ _ _ _ _ SKZ BZ LX)|].
  destruct (UZ _ _ _ _ _ SKZ BZ LX) as (<- & <- & <- & <- & <-). clear UZ.
  assert (LB : length (blot a) = length a) by apply map_length.
  assert (LS : (k1 + length (skipn k1 a ++ 10%Z :: g) = length a + S (length g))%nat) by (rewrite app_length, skipn_length; cbn [length]; lia).
  assert (LZ : (0 + length (blot a ++ 10%Z :: g) = length a + S (length g))%nat) by (rewrite app_length, LB; cbn [length]; lia).
  rewrite LS in FS, SS. rewrite LZ in FZZ, SZZ.
  assert (PS : forall j, (length a <= j)%nat -> posAt s j = posAt z j) by (intros j Hj; apply blot_pos; exact Hj).
  assert (AG : agree X lm (newLexer z)).
  { apply agree_step with (mkTok tk (posAt s (length a + S (length g))) lit) ls lz; auto; [rewrite FZZ, PS by lia; reflexivity|].
    intros n. eapply (agree_aligned X n s z ls lz); [exact SS|exact SZZ| |intros j Hj; apply PS; lia].
    unfold s, z. rewrite !skipn_app, LB, (skipn_all2 a), (skipn_all2 (blot a)) by lia. reflexivity. }
  pose proof (str_agree X _ _ _ TZ _ AG) as TM.
  pose proof (str_app X _ _ _ _ _ HM (str_ne _ _ _ _ TA) TM) as TS.
  split; [exact TS|]. destruct (str_first _ _ _ _ TZ) as (lx1 & F1). rewrite FZZ in F1. injection F1 as F1 _. apply Forall_forall. intros t Ht. rewrite Forall_forall in M4. destruct (M4 t Ht) as (j & J1 & ->).
    rewrite <- F1. cbn [tPos]. rewrite <- PS by lia. unfold posAt. cbn [pLine].
    assert (N1 : newlines (firstn j a) <= newlines a) by (rewrite <- (firstn_skipn j a) at 2; rewrite newlines_app; pose proof (newlines_pos (skipn j a)); lia).
    unfold s. rewrite firstn_app, (firstn_all2 (n := length a + S (length g)) a) by lia. rewrite newlines_app. replace (length a + S (length g) - length a)%nat with (S (length g)) by lia. cbn [firstn newlines].
    pose proof (newlines_pos (firstn (length g) b)). change (10 =? 10) with true. cbv iota. lia.
Qed.

Theorem C86_concat : forall X a b e ra pa rb pb, decodable a -> decodable b -> envOk e ->
  clean X a e (NCDDL zeroPos ra) pa -> clean X b (env pa) (NCDDL zeroPos rb) pb ->
  joinable ra rb -> (forall w, bound (env pb) w -> ~ bound (env pa) w -> hd 0 w <> 36) ->
  exists rb' pc, clean X (a ++ 10 :: b) e (NCDDL zeroPos (ra ++ rb')) pc /\ map strip rb' = map strip rb /\
    map bareDef (env pc) = map bareDef (env pb) /\ exists defs, env pc = env pa ++ defs.
Proof.
  intros X a b e ra pa rb pb DA DB EO CA CB J NS.
  destruct (decodable_join a b DA DB) as [DS DZ]. set (s := a ++ 10 :: b) in *. set (z := blot a ++ 10 :: b) in *.
  (* the first source *)
  destruct (accepted_inv _ _ _ _ _ DA CA) as (ta0 & ea0 & ka0 & ra0 & da & ? & ER & _ & _ & _ & _ & EA & _ & _ & _). injection ER as <-.
  destruct (proj1 (C17_accepts_iff X a e ra da DA EO) (ex_intro _ pa (conj CA EA))) as (ta & ea & ka & t2 & l2 & TA & _ & _ & FA & NA & KA).
  assert (EP : envOk (env pa)) by (rewrite EA; split; [exact NA|]; apply app_real; [apply EO|eapply file_real; eauto]).
  (* how the second begins *)
  destruct (accepted_inv _ _ _ _ _ DB CB) as (tb & eb & _ & _ & _ & _ & _ & TB & _).
  (* the second after blanks *)
  pose proof (reflow_blot X a b _ _ DB TB) as RF. fold z in RF.
  assert (SO := C84_layout X b z (env pa) (env pa) DB DZ RF eq_refl). unfold clean in CB. rewrite CB in SO.
  destruct (parseSource X (parseFuel z) z (env pa)) as [[[tz dz] pz]| | |] eqn:CZ; cbn [sameOutcome] in SO; try contradiction.
  destruct SO as (O1 & O2 & O3). destruct tz as [tz|]; [|discriminate O1]. destruct dz as [dz|]; [discriminate O2|]. cbn [option_map] in O1.
  destruct (accepted_inv _ _ _ _ _ DZ CZ) as (tz0 & ez0 & kz0 & rz & dz & ? & -> & _ & _ & _ & _ & EZ & _ & _ & _).
  cbn [strip] in O1. injection O1 as O1.
  destruct (proj1 (C17_accepts_iff X z (env pa) rz dz DZ EP) (ex_intro _ pz (conj CZ EZ))) as (us & ez & kz & ? & ? & TZ & _ & _ & FZ & NZ & KZ).
  (* the tokens of both *)
  destruct (joined_tokens X a b _ _ _ _ _ _ DA DB TA TB TZ) as [TS OL]. fold s in TS.
  pose proof (str_eofTok _ _ _ _ TA) as E1. pose proof (str_eofTok _ _ _ _ TZ) as E2.
  assert (JZ : joinable ra rz) by (eapply strip_joinable; [|exact J]; congruence).
  pose proof (file_app X _ _ _ _ _ FA _ _ _ _ _ FZ E1 E2 JZ OL) as FS2.
  destruct (file_two _ _ _ _ _ _ FS2 E2) as [W1 W2]. destruct (two_noerr X s _ _ DS TS W1 W2) as (t3 & l3 & S2 & R2).
  assert (NF : NoDup (names (e ++ da ++ dz))) by (rewrite app_assoc, <- EA; exact NZ).
  assert (KF : Forall (CheckOk (e ++ da ++ dz)) (ka ++ kz)).
  { rewrite app_assoc. apply Forall_app. split; [|rewrite <- EA; exact KZ]. apply check_more; auto; [eapply file_closed; eauto|].
    intros w Bw Nw. apply NS; [|rewrite EA; exact Nw]. unfold bound. rewrite (bare_names _ _ O3), EZ, names_app. apply in_or_app. now right. }
  destruct (proj2 (C17_accepts_iff X s e (ra ++ rz) (da ++ dz) DS EO)) as (pc & PC & EC); [exists (ta ++ us), ez, (ka ++ kz), t3, l3; repeat split; auto|].
  assert (EE : env pc = env pa ++ dz) by (rewrite EC, EA, app_assoc; reflexivity).
  exists rz, pc. split; auto. split; [congruence|]. split; [|eauto]. rewrite EE, <- EZ. now symmetry.
Qed.

(** Two sources, the second of which refers to the first. *)
Example C86_ex : exists a b ra pa rb pb, decodable a /\ decodable b /\ envOk [] /\ clean X0 a [] (NCDDL zeroPos ra) pa /\ clean X0 b (env pa) (NCDDL zeroPos rb) pb /\
  joinable ra rb /\ (forall w, bound (env pb) w -> ~ bound (env pa) w -> hd 0 w <> 36) /\ length ra = 2%nat /\ length rb = 2%nat.
Proof.
  exists (str "; first" ++ 10 :: str "x = [* int]"), (str "; second" ++ 10 :: str "y = { a: x } ; of x"). do 4 eexists.
  split; [now apply good_by_ascii|]. split; [now apply good_by_ascii|]. split; [split; constructor|]. split; [vm_compute; reflexivity|]. split; [vm_compute; reflexivity|].
  split; [split; [reflexivity|discriminate]|]. split; [|split; reflexivity].
  intros w [<-|[<-|[]]] _; discriminate.
Qed.

(** A comment on the line of the last rule of the first source: the token after it is lost. *)
Theorem C86_comment_refuted : exists a b ra pa rb pb, decodable a /\ decodable b /\ clean X0 a [] (NCDDL zeroPos ra) pa /\ clean X0 b (env pa) (NCDDL zeroPos rb) pb /\
  (forall w, bound (env pb) w -> ~ bound (env pa) w -> hd 0 w <> 36) /\ ~ exists t p, clean X0 (a ++ 10 :: b) [] t p.
Proof.
  exists (str "x = int ; first"), (str "y = x"). do 4 eexists.
  split; [now apply good_by_ascii|]. split; [now apply good_by_ascii|]. split; [vm_compute; reflexivity|]. split; [vm_compute; reflexivity|].
  split; [intros w [<-|[<-|[]]] _; discriminate|]. intros (t & p & H). vm_compute in H. discriminate H.
Qed.

(** A socket that only the second source defines: a check of the first then fails. *)
Theorem C86_socket_refuted : exists a b ra pa rb pb, decodable a /\ decodable b /\ clean X0 a [] (NCDDL zeroPos ra) pa /\ clean X0 b (env pa) (NCDDL zeroPos rb) pb /\
  joinable ra rb /\ ~ exists t p, clean X0 (a ++ 10 :: b) [] t p.
Proof.
  exists (str "x = $a .. $b"), (str "$a = 1"). do 4 eexists.
  split; [now apply good_by_ascii|]. split; [now apply good_by_ascii|]. split; [vm_compute; reflexivity|]. split; [vm_compute; reflexivity|].
  split; [split; [reflexivity|discriminate]|]. intros (t & p & H). vm_compute in H. discriminate H.
Qed.
