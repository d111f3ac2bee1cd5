(** Property C111: line endings. Writing every newline as carriage return and newline moves
    every position by one byte for each line before it, adds a carriage return to the texts of
    comments, and changes nothing else. *)
From Coq Require Import String.
From Verif Require Import Base Utf8 Token Strconv Ext Lexer LexSpec LexSpec2 LexSpec3 LexerProofs LexOne LexSeq LexWords Ast Env Diag Parser Doc ParseSource ParseTwin ParseFuel ParseLayout ParseNotes ParseMap Codegen Cli
  Props_Lexer Props_LexFull Props_Parser Props_Codegen Props_Report Props_Cli Props_Layout Props_Reformat Props_Notes.
Open Scope string_scope.
Open Scope list_scope.
Open Scope Z_scope.

(** ** Specification *)

(** Newlines written as carriage return and newline. *)
Fixpoint crlf (s : bytes) : bytes :=
  match s with
  | [] => []
  | c :: r => if c =? 10 then 13 :: 10 :: crlf r else c :: crlf r
  end.

(** Every line is ended by a newline. *)
Definition wholeLines (s : bytes) : Prop := s = [] \/ exists h, s = h ++ [10].

(** Scan, called until it has seen all of the source, neither panics nor records an error: all
    text literals are closed. *)
Definition clean (X : Ext) (s : bytes) : Prop :=
  exists ts l, scans X (S (length s)) (newLexer s) = Ok (ts, l) /\ errors l = [].

(** One byte more for every line before; lines are counted from 1, and positions with no line
    are the ones that were never set. *)
Definition crPos (p : position) : position := mkPos (pFile p) (if pLine p <=? 0 then pOffset p else pOffset p + (pLine p - 1)) (pLine p) (pColumn p).
Definition addCr (w : bytes) : bytes := w ++ [13].

(** The second outcome is the first one with every position further by one byte for each line
    before it - lines and columns stay -, and with a carriage return at the end of the texts of
    comments. *)
Definition returned (x y : res (fileResult * parser)) : Prop :=
  match x, y with
  | Ok ((t, ds), p), Ok ((t', ds'), p') =>
    t' = option_map (moveFile crPos addCr) t /\ ds' = option_map (map (mvD crPos addCr)) ds /\ env p' = map (mvDef crPos addCr) (env p)
  | Panic, Panic => True
  | _, _ => False
  end.

(** ** Texts *)

Lemma cr_to : forall p k, posTo (crPos p) k = crPos (posTo p k).
Proof. intros p k. unfold posTo, crPos. cbn [pFile pOffset pLine pColumn]. f_equal. destruct (pLine p <=? 0); lia. Qed.


Lemma crlf_app : forall u v, crlf (u ++ v) = crlf u ++ crlf v.
Proof. induction u as [|c u IH]; intros v; cbn [app crlf]; auto. rewrite IH. now destruct (c =? 10). Qed.

Lemma crlf_none : forall u, ~ In 10 u -> crlf u = u.
Proof. induction u as [|c u IH]; intros N; cbn [crlf]; auto. destruct (Z.eqb_spec c 10) as [->|_]; [destruct N; now left|]. rewrite IH; auto. intros K. apply N. now right. Qed.

Lemma crlf_len : forall u, Z.of_nat (length (crlf u)) = Z.of_nat (length u) + newlines u.
Proof. induction u as [|c u IH]; cbn [crlf newlines length]; auto. destruct (c =? 10); cbn [length]; lia. Qed.

Lemma crlf_lines : forall u, newlines (crlf u) = newlines u.
Proof. induction u as [|c u IH]; cbn [crlf newlines]; auto. destruct (c =? 10) eqn:E; cbn [newlines]; [|rewrite E]; rewrite IH; reflexivity. Qed.

Lemma crlf_since : forall u n, sinceNewline (crlf u) n = sinceNewline u n.
Proof. induction u as [|c u IH]; intros n; cbn [crlf sinceNewline]; auto. destruct (c =? 10) eqn:E; cbn [sinceNewline]; [|rewrite E]; rewrite IH; reflexivity. Qed.

Lemma crlf_blank : forall g, allBlank g -> allBlank (crlf g).
Proof.
  intros g H. induction H as [|c g B H IH]; [constructor|]. cbn [crlf]. destruct (c =? 10); repeat (apply Forall_cons; auto); unfold blank; auto.
Qed.

Lemma newlines_nn : forall u, 0 <= newlines u.
Proof. induction u as [|c u IH]; cbn [newlines]; [lia|]. destruct (c =? 10); lia. Qed.

Lemma cut : forall s : bytes, ~ In 10 s \/ exists u v, s = u ++ 10 :: v /\ ~ In 10 u.
Proof.
  induction s as [|c s IH]; [left; auto|]. destruct (Z.eq_dec c 10) as [->|N]; [right; exists [], s; auto|].
  destruct IH as [IH|(u & v & -> & NU)]; [left; intros [K|K]; congruence|]. right. exists (c :: u), v. split; auto. intros [K|K]; congruence.
Qed.

Lemma crlf_good : forall s, Good s -> Good (crlf s).
Proof.
  intros s. remember (length s) as n eqn:En. revert s En. induction n as [n IH] using lt_wf_ind. intros s En G.
  destruct (cut s) as [N|(u & v & E & N)]; [now rewrite crlf_none|]. subst s. rewrite crlf_app, (crlf_none u N). cbn [crlf Z.eqb Pos.eqb].
  destruct (good_pre u (10 :: v) G) as [G1 G2]; [right; unfold blank; cbn [hd]; lia|]. apply good_app; auto.
  apply (good_app [13; 10]); [apply good_ascii; repeat (apply Forall_cons; [lia|]); apply Forall_nil|].
  apply (IH (length v)); auto; [rewrite En, app_length; cbn [length]; lia|]. apply (good_tail 10); [exact G2|lia].
Qed.

(** ** Lexemes *)

Section Lexemes.
Variable X : Ext.

Lemma lexed_crlf : forall tk text lit rest, Lexed X tk text lit rest -> Good (text ++ rest) -> text <> [] -> tk <> COMMENT -> ~ openText text rest ->
  Lexed X tk text lit (crlf rest).
Proof.
  intros tk text lit rest H G NE NC NO. destruct (cut rest) as [N|(u & v & -> & N)]; [now rewrite crlf_none|].
  rewrite crlf_app, (crlf_none u N). cbn [crlf Z.eqb Pos.eqb]. apply (lexed_apart X tk text lit u (10 :: v)); auto; try (right; unfold blank; cbn [hd]; lia).
  intros -> [K|K]; contradiction.
Qed.

(** Sources whose text literals are closed. *)
Inductive Closed : bytes -> Prop :=
| cl_end g : allBlank g -> Closed g
| cl_more g tk text lit rest : allBlank g -> text <> [] -> ~ In 10 text -> Lexed X tk text lit rest -> ~ openText text rest -> Closed rest -> Closed (g ++ text ++ rest).

Lemma lexed_nil : forall tk lit rest, Lexed X tk [] lit rest -> rest = [] /\ lit = [] /\ tk = EOF.
Proof.
  intros tk lit rest H. inversion H; subst; auto.
  - match goal with K : In _ punctTable |- _ => unfold punctTable in K; cbn [In] in K; repeat (destruct K as [K|K]; [discriminate K|]); contradiction end.
  - discriminate.
Qed.

Lemma lexed_comment : forall text lit rest, Lexed X COMMENT text lit rest -> text = 59 :: lit /\ ~ In 10 lit /\ (rest = [] \/ hd 0 rest = 10).
Proof.
  intros text lit rest H. inversion H; subst; auto; try (exfalso; eapply kind_comment; eassumption).
  match goal with K : In _ punctTable |- _ => unfold punctTable in K; cbn [In] in K; repeat (destruct K as [K|K]; [discriminate K|]); contradiction end.
Qed.

Lemma errors_back : forall s n l k ts l', St s l k -> scans X n l = Ok (ts, l') -> errors l' = [] -> errors l = [].
Proof.
  intros s. induction n as [|n IH]; intros l k ts l' HS H E; cbn [scans] in H; [congruence|].
  destruct (scan_full_err X s l k HS) as [[SC _]|(g & tk & text & lit & rest & l1 & _ & _ & _ & SC & S1 & _ & ER & _)]; rewrite SC in H; cbn [rbind] in H; [discriminate|].
  destruct (scans X n l1) as [[us m]| | |] eqn:E1; cbn [rbind] in H; try discriminate. injection H as <- <-.
  pose proof (IH _ _ _ _ S1 E1 E) as K. destruct ER as [[_ R]|[_ R]]; congruence.
Qed.

Lemma closed_here : forall s n l k ts l', St s l k -> (length (skipn k s) < n)%nat -> scans X n l = Ok (ts, l') -> errors l' = [] -> Closed (skipn k s).
Proof.
  intros s. induction n as [|n IH]; intros l k ts l' HS L H E; [lia|]. cbn [scans] in H.
  destruct (scan_full_err X s l k HS) as [[SC _]|(g & tk & text & lit & rest & l1 & N1 & N2 & N3 & SC & S1 & N4 & ER & _)]; rewrite SC in H; cbn [rbind] in H; [discriminate|].
  destruct (scans X n l1) as [[us m]| | |] eqn:E1; cbn [rbind] in H; try discriminate. injection H as <- <-.
  pose proof (errors_back _ _ _ _ _ _ S1 E1 E) as K. destruct ER as [[NO _]|[_ R]]; [|contradiction].
  destruct text as [|c text].
  - destruct (lexed_nil _ _ _ N3) as (-> & _ & _). rewrite N1, !app_nil_r. now constructor.
  - rewrite N1. assert (ES : skipn (k + length g + length (c :: text)) s = rest).
    { rewrite app_assoc in N1. rewrite <- Nat.add_assoc, <- app_length. now apply skipn_more. }
    apply cl_more with (tk := tk) (lit := lit); auto; [discriminate|]. rewrite <- ES. apply (IH _ _ _ _ S1) with (2 := E1); auto.
    rewrite ES. rewrite N1, !app_length in L. cbn [length] in L. lia.
Qed.

Lemma clean_closed : forall s, decodable s -> clean X s -> Closed s.
Proof. intros s D (ts & l & H & E). apply (closed_here s (S (length s)) (newLexer s) 0 ts l); auto using newLexer_st. Qed.

(** ** Tokens *)

Variable s : bytes.

(** Where byte number [k] goes. *)
Definition at' (k : nat) : nat := length (crlf (firstn k s)).

Lemma posAt_crlf : forall k, (k <= length s)%nat -> posAt (crlf s) (at' k) = crPos (posAt s k).
Proof.
  intros k L. unfold posAt, crPos. cbn [pFile pOffset pLine pColumn].
  assert (E : firstn (at' k) (crlf s) = crlf (firstn k s)).
  { unfold at'. rewrite <- (firstn_skipn k s) at 2. rewrite crlf_app. apply firstn_len_app. }
  rewrite E, crlf_lines, crlf_since. pose proof (newlines_nn (firstn k s)). destruct (Z.leb_spec (1 + newlines (firstn k s)) 0); [lia|].
  f_equal. unfold at'. rewrite crlf_len, firstn_length_le; lia.
Qed.

Lemma at_more : forall k a b, skipn k s = a ++ b -> (at' (k + length a) = at' k + length (crlf a))%nat.
Proof.
  intros k a b E. unfold at'. rewrite <- app_length, <- crlf_app. f_equal. f_equal.
  destruct (le_lt_dec k (length s)) as [L|L].
  - rewrite <- (firstn_skipn k s) at 1. rewrite E. rewrite firstn_app, firstn_length_le by auto.
    rewrite firstn_all2 by (rewrite firstn_length_le; lia). replace (k + length a - k)%nat with (length a) by lia. f_equal. apply firstn_len_app.
  - rewrite skipn_all2 in E by lia. destruct a; [|discriminate]. cbn [length]. now rewrite Nat.add_0_r, app_nil_r.
Qed.

Lemma at_skip : forall k, skipn (at' k) (crlf s) = crlf (skipn k s).
Proof. intros k. unfold at'. rewrite <- (firstn_skipn k s) at 2. rewrite crlf_app. apply skipn_len_app. Qed.

(** The second lexer is where the first one is, or between the two bytes of a line end. *)
Definition beside (k k' : nat) : Prop := k' = at' k \/ (k' = S (at' k) /\ exists v, skipn k s = 10 :: v).

Lemma beside_gap : forall k k' g w, beside k k' -> skipn k s = g ++ w -> allBlank g -> (w = [] \/ hd 0 w <> 10) ->
  exists g', allBlank g' /\ skipn k' (crlf s) = g' ++ crlf w /\ (k' + length g' = at' (k + length g))%nat.
Proof.
  intros k k' g w [->|(-> & v & E)] EG B N; rewrite (at_more k g w EG).
  - exists (crlf g). split; [now apply crlf_blank|]. rewrite at_skip, EG. split; auto. apply crlf_app.
  - destruct g as [|c g].
    + exfalso. rewrite EG in E. cbn [app] in E. subst w. destruct N as [N|N]; [discriminate|now apply N].
    + rewrite EG in E. cbn [app] in E. injection E as -> E. inversion B; subst. exists (10 :: crlf g).
      pose proof (at_skip k) as K. rewrite EG in K. cbn [app crlf Z.eqb Pos.eqb] in K. split; [constructor; [unfold blank; auto|now apply crlf_blank]|]. split.
      * change (S (at' k)) with (1 + at' k)%nat. rewrite Nat.add_comm. change 1%nat with (length [13]). rewrite (skipn_more (crlf s) (at' k) [13] (10 :: crlf (g ++ w)) K). cbn [app]. now rewrite crlf_app.
      * cbn [crlf Z.eqb Pos.eqb length]. lia.
Qed.

Lemma crlf_scans : forall n l l' k k', St s l k -> St (crlf s) l' k' -> Closed (skipn k s) -> wholeLines s -> beside k k' -> (errors l = [] <-> errors l' = []) ->
  relRes (fun x y => fst y = map (mvTok crPos addCr) (fst x) /\ (errors (snd x) = [] <-> errors (snd y) = [])) (scans X n l) (scans X n l').
Proof.
  induction n as [|n IH]; intros l l' k k' HS HS' HC HW HB HE; [split; auto|]. cbn [scans].
  remember (skipn k s) as w eqn:EW. symmetry in EW. destruct HC as [g B|g tk text lit rest B NE N10 LX NO HC].
  - destruct (beside_gap k k' g [] HB) as (g' & B' & E' & K'); [now rewrite app_nil_r|auto|now left|]. rewrite app_nil_r in E'.
    destruct (blank_end_scan X s l k g HS EW B) as (l1 & SC & S1 & EE & KK). destruct (blank_end_scan X (crlf s) l' k' g' HS' E' B') as (l1' & SC' & S1' & EE' & KK').
    rewrite SC, SC'. cbn [rbind].
    assert (H : relRes (fun x y => fst y = map (mvTok crPos addCr) (fst x) /\ (errors (snd x) = [] <-> errors (snd y) = [])) (scans X n l1) (scans X n l1')).
    { apply (IH l1 l1' _ _ S1 S1'); auto; [rewrite KK; constructor; constructor|left; exact K'|rewrite EE, EE'; exact HE]. }
    destruct (scans X n l1) as [[us m]| | |], (scans X n l1') as [[us' m']| | |]; cbn [rbind relRes fst snd] in *; auto.
    destruct H as [HA HX]. split; auto. cbn [map]. unfold mvTok at 1. cbn [tTok tPos tLit]. rewrite HA, K', posAt_crlf; auto. apply S1.
  - assert (NB : text ++ rest = [] \/ hd 0 (text ++ rest) <> 10) by (right; destruct text as [|c text]; [congruence|]; cbn [app hd]; intros ->; apply N10; now left).
    destruct (beside_gap k k' g (text ++ rest) HB) as (g' & B' & E' & K'); auto. rewrite crlf_app, (crlf_none text N10) in E'.
    assert (EA : skipn (k + length g) s = text ++ rest) by now apply skipn_more.
    assert (K1 := at_more _ _ _ EA). rewrite (crlf_none text N10) in K1.
    assert (GT : Good (text ++ rest)) by (pose proof (st_good _ _ _ HS) as GS; rewrite EW in GS; exact (good_drop g _ B GS)).
    assert (STEP : forall text' lit' rest', skipn k' (crlf s) = g' ++ text' ++ rest' -> Lexed X tk text' lit' rest' -> ~ openText text' rest' -> (if teq tk COMMENT then lit ++ [13] else lit) = lit' ->
      beside (k + length g + length text) (k' + length g' + length text') ->
      relRes (fun x y => fst y = map (mvTok crPos addCr) (fst x) /\ (errors (snd x) = [] <-> errors (snd y) = []))
        ('(t, l1) <- scan X l;; '(ts, l2) <- scans X n l1;; Ok (t :: ts, l2)) ('(t, l1) <- scan X l';; '(ts, l2) <- scans X n l1;; Ok (t :: ts, l2))).
    { intros text' lit' rest' E1' LX' NO' EL HB1.
      destruct (scan_full_err X s l k HS) as [[_ N]|(g1 & tk1 & text1 & lit1 & rest1 & l1 & N1 & N2 & N3 & SC & S1 & N4 & ER & U)]; [exfalso; exact (N _ _ _ _ _ EW B LX)|].
      destruct (U _ _ _ _ _ EW B LX) as (<- & <- & <- & <- & <-).
      destruct (scan_full_err X (crlf s) l' k' HS') as [[_ N']|(g1 & tk1 & text1 & lit1 & rest1 & l1' & N1' & N2' & N3' & SC' & S1' & N4' & ER' & U')]; [exfalso; exact (N' _ _ _ _ _ E1' B' LX')|].
      destruct (U' _ _ _ _ _ E1' B' LX') as (<- & <- & <- & <- & <-). rewrite SC, SC'. cbn [rbind].
      assert (H : relRes (fun x y => fst y = map (mvTok crPos addCr) (fst x) /\ (errors (snd x) = [] <-> errors (snd y) = [])) (scans X n l1) (scans X n l1')).
      { apply (IH l1 l1' _ _ S1 S1'); auto; [|destruct ER as [[_ ->]|[R _]], ER' as [[_ ->]|[R' _]]; auto; contradiction].
        now rewrite (skipn_more _ _ text rest EA). }
      destruct (scans X n l1) as [[us m]| | |], (scans X n l1') as [[us' m']| | |]; cbn [rbind relRes fst snd] in *; auto.
      destruct H as [HA HX]. split; auto. cbn [map]. unfold mvTok at 1. cbn [tTok tPos tLit]. pose proof (st_le _ _ _ S1). rewrite HA, K', posAt_crlf by lia. rewrite <- EL. reflexivity. }
    destruct (token_eq_dec tk COMMENT) as [->|NC].
    + destruct (lexed_comment _ _ _ LX) as (-> & NL & HR). assert (NR : exists v, rest = 10 :: v).
      { destruct rest as [|c rest]; [exfalso|destruct HR as [HR|HR]; [discriminate|]; cbn [hd] in HR; subst; eauto].
        destruct HW as [->|(h & ES)]; [rewrite skipn_nil in EW; destruct g; discriminate|].
        rewrite <- (firstn_skipn k s), EW, app_nil_r in ES. rewrite !app_assoc in ES. destruct (exists_last NE) as (a & z & EZ). rewrite EZ in ES.
        rewrite app_assoc in ES. apply app_inj_tail in ES as [_ ->]. apply N10. rewrite EZ. apply in_or_app. right. now left. }
      destruct NR as (v & ->). cbn [crlf Z.eqb Pos.eqb] in E'. apply (STEP (59 :: lit ++ [13]) (lit ++ [13]) (10 :: crlf v)).
      * rewrite E'. cbn [app]. now rewrite <- app_assoc.
      * constructor; [|now right]. intros K. apply in_app_or in K as [K|[K|[]]]; [contradiction|discriminate].
      * intros (a & _ & K & _). discriminate K.
      * reflexivity.
      * right. split; [cbn [length] in *; rewrite app_length; cbn [length]; lia|]. exists v. now rewrite (skipn_more _ _ (59 :: lit) (10 :: v) EA).
    + apply (STEP text lit (crlf rest)); auto.
      * now apply lexed_crlf.
      * intros O. apply NO. destruct O as (a & A1 & A2 & A3 & A4 & A5). exists a. repeat split; auto. destruct rest as [|c rest]; [now left|]. right. cbn [crlf] in A5. destruct (c =? 10) eqn:E; cbn [hd] in *; destruct A5 as [A5|A5]; try discriminate; auto.
      * unfold teq. destruct (token_eq_dec tk COMMENT); congruence.
      * left. lia.
Qed.

(** Without the condition on the last line: the same lexemes but for the texts of comments. *)
Lemma crlf_in : forall g, In 10 (crlf g) <-> In 10 g.
Proof.
  induction g as [|c g IH]; [tauto|]. cbn [crlf In]. destruct (Z.eqb_spec c 10) as [->|N]; cbn [In]; [tauto|]. rewrite IH. tauto.
Qed.

Lemma closed_renoted : forall w, Closed w -> Good w -> forall first w', (w' = crlf w \/ exists v, w = 10 :: v /\ w' = 10 :: crlf v) -> Renoted X first w w'.
Proof.
  intros w HC. induction HC as [g B|g tk text lit rest B NE N10 LX NO HC IH]; intros GW first w' HW.
  - apply rn_end; auto. destruct HW as [->|(v & -> & ->)]; [now apply crlf_blank|]. inversion B; subst. constructor; [unfold blank; auto|now apply crlf_blank].
  - assert (GAP : exists g', allBlank g' /\ w' = g' ++ text ++ crlf rest /\ (In 10 g <-> In 10 g')).
    { destruct HW as [->|(v & E & ->)].
      - exists (crlf g). split; [now apply crlf_blank|]. rewrite !crlf_app, (crlf_none text N10). split; auto. symmetry. apply crlf_in.
      - destruct g as [|c g]; [exfalso; destruct text as [|c text]; [congruence|]; injection E as -> _; apply N10; now left|].
        cbn [app] in E. injection E as -> <-. inversion B; subst. exists (10 :: crlf g). split; [constructor; [unfold blank; auto|now apply crlf_blank]|].
        rewrite !crlf_app, (crlf_none text N10). split; auto. cbn [In]. tauto. }
    destruct GAP as (g' & B' & -> & I10). pose proof (good_drop g _ B GW) as GT. pose proof (lexed_good X _ _ _ _ LX GT) as GR. specialize (IH GR false).
    destruct (token_eq_dec tk COMMENT) as [->|NC].
    + destruct (lexed_comment _ _ _ LX) as (-> & NL & HR). destruct rest as [|c rest].
      * apply (rn_comment X first g g' lit lit [] []); auto.
      * destruct HR as [HR|HR]; [discriminate|]. cbn [hd] in HR. subst c. cbn [crlf Z.eqb Pos.eqb].
        replace (g' ++ (59 :: lit) ++ 13 :: 10 :: crlf rest) with (g' ++ (59 :: lit ++ [13]) ++ 10 :: crlf rest) by (cbn [app]; now rewrite <- app_assoc).
        apply rn_comment; auto; [|apply IH; right; eauto]. intros K. apply in_app_or in K as [K|[K|[]]]; [contradiction|discriminate].
    + apply rn_lexeme with (tk := tk) (lit := lit); auto. now apply lexed_crlf.
Qed.
End Lexemes.

(** ** The property *)

(** C111. Newlines can be written as carriage return and newline. *)
Theorem C111_line_ends : forall X s e, decodable s -> clean X s -> wholeLines s ->
  returned (parseSource X (parseFuel s) s e) (parseSource X (parseFuel (crlf s)) (crlf s) (map (mvDef crPos addCr) e)).
Proof.
  intros X s e D HC HW. assert (D' : decodable (crlf s)) by now apply crlf_good. pose proof (clean_closed X s D HC) as CL.
  assert (H : forall n, relRes (fun x y => fst y = map (mvTok crPos addCr) (fst x) /\ (errors (snd x) = [] <-> errors (snd y) = [])) (scans X n (newLexer s)) (scans X n (newLexer (crlf s)))).
  { intros n. apply (crlf_scans X s n _ _ 0%nat 0%nat); auto using newLexer_st; [now left|].
    destruct (newLexer_at s D) as (_ & -> & _), (newLexer_at (crlf s) D') as (_ & -> & _). tauto. }
  destruct (C14_terminates X s e D) as (r & N1 & N2 & HR), (C14_terminates X (crlf s) (map (mvDef crPos addCr) e) D') as (r' & N1' & N2' & HR').
  rewrite (HR (parseFuel s)), (HR' (parseFuel (crlf s))) by apply Nat.le_refl.
  assert (K := parseSource_mov X crPos addCr [] (fun _ => eq_refl) (fun _ => eq_refl) cr_to eq_refl eq_refl eq_refl (Nat.max (parseFuel s) (parseFuel (crlf s))) s (crlf s) e).
  rewrite (HR (Nat.max _ _)), (HR' (Nat.max _ _)) in K by (auto using Nat.le_max_l, Nat.le_max_r).
  assert (K1 : relRes (movOut crPos addCr) r r').
  { apply K.
    - intros n. specialize (H n). destruct (scans X n (newLexer s)) as [[? ?]| | |], (scans X n (newLexer (crlf s))) as [[? ?]| | |]; cbn [relRes] in *; auto. apply H.
    - intros t l t' l' E E'. specialize (H 2%nat). rewrite E, E' in H. apply H. }
  destruct r as [[[t ds] p]| | |], r' as [[[t' ds'] p']| | |]; cbn [relRes returned] in *; auto. destruct K1 as [K1 K2]. cbn [fst snd] in *. injection K1 as -> ->. auto.
Qed.

(** Diagnostics are reported at the same lines and columns, with the same messages; [mvMsg]
    changes no more than positions inside the values of two names. *)
Theorem C111_reports : forall X s t ds p, decodable s -> clean X s -> wholeLines s -> parse X s = Ok ((t, ds), p) ->
  exists t' ds' p', parse X (crlf s) = Ok ((t', ds'), p') /\
    option_map (map (fun d => (pLine (dStart d), pColumn (dStart d), pLine (dEnd d), pColumn (dEnd d)))) ds' =
    option_map (map (fun d => (pLine (dStart d), pColumn (dStart d), pLine (dEnd d), pColumn (dEnd d)))) ds.
Proof.
  intros X s t ds p D HC HW H. unfold parse, newEnvironment in *. pose proof (C111_line_ends X s [] D HC HW) as K. cbn [map] in K. rewrite H in K. cbn [returned] in K.
  destruct (parseSource X (parseFuel (crlf s)) (crlf s) []) as [[[t' ds'] p']| | |]; try contradiction. destruct K as (-> & -> & _).
  do 3 eexists. split; [reflexivity|]. destruct ds as [ds|]; auto. cbn [option_map]. f_equal. rewrite map_map. reflexivity.
Qed.

(** The same file is generated, and everything else that [generate] does is the same, also if
    the last line has no newline. *)
Theorem C111_generated : forall X C s, decodable s -> clean X s -> sameFile X C s (crlf s) /\ sameRun X C s (crlf s).
Proof. intros X C s D HC. apply C104_generated; auto; [now apply crlf_good|]. apply closed_renoted; auto. now apply clean_closed. Qed.

(** ** Examples *)

Definition lfSrc : bytes := str "; one" ++ [10] ++ str "a=1 ;two" ++ [10] ++ str "b={k:int;three" ++ [10] ++ str "}" ++ [10] ++ str "b=c" ++ [10].
Definition lfOut : res (fileResult * parser) := Eval vm_compute in parse X0 lfSrc.
Definition crlfOut : res (fileResult * parser) := Eval vm_compute in parse X0 (crlf lfSrc).

Lemma lf_is : parse X0 lfSrc = lfOut.
Proof. vm_compute. reflexivity. Qed.

Lemma crlf_is : parse X0 (crlf lfSrc) = crlfOut.
Proof. vm_compute. reflexivity. Qed.

Lemma lf_clean : clean X0 lfSrc.
Proof. unfold clean. eexists. eexists. split; [vm_compute; reflexivity|reflexivity]. Qed.

(** Comments of each kind, and diagnostics on three lines. *)
Example C111_ex : decodable lfSrc /\ clean X0 lfSrc /\ wholeLines lfSrc /\ exists c r l ds c' r' l' ds' p p',
  parse X0 lfSrc = Ok ((Some (NCDDL zeroPos (NComment c :: r :: l)), Some ds), p) /\
  parse X0 (crlf lfSrc) = Ok ((Some (NCDDL zeroPos (NComment c' :: r' :: l')), Some ds'), p') /\
  cText c = str " one" /\ cText c' = str " one" ++ [13] /\ length l' = length l /\
  map (fun d => pLine (dStart d)) ds = [3; 3; 3; 3; 4; 5] /\ map (fun d => pOffset (dStart d)) ds = [16; 17; 18; 20; 30; 34] /\
  map (fun d => pLine (dStart d)) ds' = [3; 3; 3; 3; 4; 5] /\ map (fun d => pOffset (dStart d)) ds' = [18; 19; 20; 22; 33; 38].
Proof.
  split; [now apply good_by_ascii|]. split; [exact lf_clean|]. split; [right; exists (removelast lfSrc); reflexivity|].
  do 10 eexists. rewrite lf_is, crlf_is. repeat split; reflexivity.
Qed.

(** The condition on text literals is needed: one that is not closed loses its last byte
    without carriage returns and keeps it with them; if there is no byte to lose the parser
    crashes without carriage returns only. *)
Definition cutText : bytes := str "a=""bc" ++ [10].
Definition noText : bytes := str "a=""" ++ [10].

Theorem C111_open_refuted :
  (exists s i t p v v' p', decodable s /\ wholeLines s /\ ~ In 13 s /\
     parse X0 s = Ok ((Some (NCDDL zeroPos [NRule zeroPos i (NTextLiteral t TEXT_LITERAL v) None]), None), p) /\
     parse X0 (crlf s) = Ok ((Some (NCDDL zeroPos [NRule zeroPos i (NTextLiteral t TEXT_LITERAL v') None]), None), p') /\ v = str "b" /\ v' = str "bc") /\
  (exists s t p, decodable s /\ wholeLines s /\ parse X0 s = Panic /\ parse X0 (crlf s) = Ok ((Some t, None), p)).
Proof.
  split.
  - exists cutText. do 6 eexists. split; [now apply good_by_ascii|]. split; [right; exists (str "a=""bc"); reflexivity|]. split; [intros K; cbn in K; intuition discriminate|].
    split; [vm_compute; reflexivity|]. split; [vm_compute; reflexivity|]. split; reflexivity.
  - exists noText. do 2 eexists. split; [now apply good_by_ascii|]. split; [right; exists (str "a="""); reflexivity|]. split; vm_compute; reflexivity.
Qed.
