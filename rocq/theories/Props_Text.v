(** Property C63: texts of positions, ranges, tokens and lists of diagnostics. *)
From Coq Require Import String.
From Verif Require Import Base Utf8 Token Ext Strconv StrconvSpec StrconvProofs Lexer LexSpec LexSpec2 LexerProofs LexOne LexSeq LexWords
  Ast Env Diag Parser Repl Codegen Cli Props_Lexer.
Open Scope string_scope.
Open Scope list_scope.
Open Scope Z_scope.

(** ** Decimal numbers *)

Lemma digit_under : forall d, ~ Digit 95 d.
Proof. intros d H. remember 95 as c eqn:E. destruct H; lia. Qed.

Lemma value_fun : forall b a s v, Value b a s v -> forall v', Value b a s v' -> v = v'.
Proof.
  intros b a s v H. induction H; intros v' H'; inversion H'; subst; auto.
  - exfalso. eapply digit_under; eauto.
  - exfalso. eapply digit_under; eauto.
  - pose proof (digit_fun _ _ _ H H4). subst. auto.
Qed.

Lemma fmt_value : forall n, 0 <= n -> Value 10 0 (fmtD n) n.
Proof.
  intros n HN. unfold fmtD. destruct (Z.ltb_spec n 0); [lia|].
  assert (HB : 0 <= n < 2 ^ Z.of_nat (S (Z.to_nat (Z.log2 n)))).
  { rewrite Nat2Z.inj_succ, Z2Nat.id by (apply Z.log2_nonneg).
    destruct (Z.eq_dec n 0) as [->|]; [simpl; lia|]. pose proof (Z.log2_spec n). lia. }
  destruct (digitsPos_value _ n [] HB ltac:(lia)) as (ds & E & _ & HV & _ & _).
  rewrite app_nil_r in E. rewrite E.
  destruct (HV 0) as (k & _ & HV'). specialize (HV' [] n). rewrite app_nil_r in HV'. apply HV'. simpl. constructor.
Qed.

Definition isDec (c : Z) : Prop := 48 <= c <= 57.

Lemma fmt_digits : forall n, 0 <= n -> Forall isDec (fmtD n) /\ fmtD n <> [].
Proof. intros n H. apply fmt_numeral in H. tauto. Qed.

Lemma fmt_neg : forall n, n < 0 -> fmtD n = 45 :: fmtD (- n).
Proof. intros n H. unfold fmtD. destruct (Z.ltb_spec n 0); [|lia]. destruct (Z.ltb_spec (- n) 0); [lia|]. reflexivity. Qed.

Lemma fmt_inj_pos : forall n m, 0 <= n -> 0 <= m -> fmtD n = fmtD m -> n = m.
Proof.
  intros n m HN HM E. apply (value_fun 10 0 (fmtD n)); [now apply fmt_value|]. rewrite E. now apply fmt_value.
Qed.

Lemma fmt_inj : forall n m, fmtD n = fmtD m -> n = m.
Proof.
  intros n m E. destruct (Z_lt_ge_dec n 0) as [L|L]; destruct (Z_lt_ge_dec m 0) as [L'|L'].
  - rewrite (fmt_neg n), (fmt_neg m) in E by lia. injection E as E. apply fmt_inj_pos in E; lia.
  - exfalso. rewrite (fmt_neg n) in E by lia. destruct (fmt_digits m ltac:(lia)) as [F _]. rewrite <- E in F. inversion F as [|? ? F1 _]; subst.
    unfold isDec in F1; lia.
  - exfalso. rewrite (fmt_neg m) in E by lia. destruct (fmt_digits n ltac:(lia)) as [F _]. rewrite E in F. inversion F as [|? ? F1 _]; subst.
    unfold isDec in F1; lia.
  - apply fmt_inj_pos; auto; lia.
Qed.

(** Two texts that start with a run of [P]'s up to a non-[P] split in the same way. *)
Lemma split_run : forall (P : Z -> Prop) a b x y r r', Forall P a -> Forall P b -> ~ P x -> ~ P y ->
  a ++ x :: r = b ++ y :: r' -> a = b /\ x = y /\ r = r'.
Proof.
  intros P a. induction a as [|c a IH]; intros [|d b] x y r r' HA HB HX HY E; simpl in E.
  - injection E as -> ->. auto.
  - injection E as E1 E2. subst. inversion HB; contradiction.
  - injection E as E1 E2. subst. inversion HA; contradiction.
  - injection E as -> E. inversion HA; inversion HB; subst.
    destruct (IH _ _ _ _ _ H2 H6 HX HY E) as (-> & -> & ->). auto.
Qed.

Definition numChar (c : Z) : Prop := c = 45 \/ isDec c.

Lemma fmt_chars : forall n, Forall numChar (fmtD n).
Proof.
  assert (HP : forall n, 0 <= n -> Forall numChar (fmtD n)).
  { intros n H. destruct (fmt_digits n H) as [F _]. eapply Forall_impl; [|exact F]. intros a Ha. now right. }
  intros n. destruct (Z_lt_ge_dec n 0) as [L|L].
  - rewrite fmt_neg by lia. constructor; [now left|]. apply HP. lia.
  - apply HP. lia.
Qed.

(** A number, then something that cannot continue it. *)
Lemma num_split : forall n m x y r r', ~ numChar x -> ~ numChar y -> fmtD n ++ x :: r = fmtD m ++ y :: r' ->
  n = m /\ x = y /\ r = r'.
Proof.
  intros n m x y r r' HX HY E.
  destruct (split_run numChar _ _ _ _ _ _ (fmt_chars n) (fmt_chars m) HX HY E) as (E1 & E2 & E3).
  split; auto. now apply fmt_inj.
Qed.

Lemma num_split_end : forall n m y r', ~ numChar y -> fmtD n = fmtD m ++ y :: r' -> False.
Proof.
  intros n m y r' HY E. pose proof (fmt_chars n) as F. rewrite E in F. apply Forall_app in F as [_ F]. inversion F; contradiction.
Qed.

Ltac notnum := unfold numChar, isDec; lia.

(** ** Positions and ranges *)

(** The text of a position determines its line and column. *)
Theorem C63_position : forall p q, pFile p = pFile q -> 0 < pColumn p -> 0 < pColumn q ->
  (posString p = posString q <-> pLine p = pLine q /\ pColumn p = pColumn q).
Proof.
  intros [f o l c] [f' o' l' c']; simpl. intros -> HC HC'. unfold posString; simpl.
  apply Z.ltb_lt in HC. apply Z.ltb_lt in HC'. rewrite HC, HC'. split; [|intros [-> ->]; auto].
  intros E. apply app_inv_head in E. apply num_split in E as (-> & _ & E); try notnum.
  apply fmt_inj in E. auto.
Qed.

(** The text itself: the file if there is one, the line and the column. *)
Theorem C63_position_text : forall p, 0 < pColumn p ->
  posString p = (match pFile p with [] => [] | f => f ++ str ":" end) ++ fmtD (pLine p) ++ str ":" ++ fmtD (pColumn p).
Proof.
  intros [f o l c]; simpl. intros H. unfold posString; simpl. destruct (Z.ltb_spec 0 c); [|lia]. now destruct f.
Qed.

(** A position without a column prints its line alone. *)
Theorem C63_position_no_column : forall p, pColumn p <= 0 -> pFile p = [] -> posString p = fmtD (pLine p).
Proof.
  intros [f o l c]; simpl. intros H ->. unfold posString; simpl. destruct (Z.ltb_spec 0 c); [lia|]. now rewrite app_nil_r.
Qed.

(** The text of a range determines the lines and columns of both ends. *)
Theorem C63_range : forall a b a' b', rangeString (mkRange a b) = rangeString (mkRange a' b') <->
  (pLine a = pLine a' /\ pColumn a = pColumn a' /\ pLine b = pLine b' /\ pColumn b = pColumn b').
Proof.
  intros [f o l c] [f2 o2 l2 c2] [f3 o3 l3 c3] [f4 o4 l4 c4]; simpl. unfold rangeString; simpl rStart; simpl rEnd; cbn [pLine pColumn].
  split; [|intros (-> & -> & -> & ->); reflexivity].
  intros E. apply app_inv_head in E.
  change (str ", column ") with (44 :: str " column ") in E. rewrite <- !app_comm_cons in E.
  apply num_split in E as (-> & _ & E); try notnum.
  apply app_inv_head in E.
  destruct (Z.eqb_spec l3 l2) as [E2|N2]; destruct (Z.eqb_spec l3 l4) as [E4|N4].
  - change (str " ~ ") with (32 :: str "~ ") in E. rewrite <- !app_comm_cons in E.
    apply num_split in E as (-> & _ & E); try notnum. apply app_inv_head in E. apply fmt_inj in E. subst; auto.
  - exfalso. change (str " ~ ") with (32 :: str "~ ") in E. change (str " to line ") with (32 :: str "to line ") in E. rewrite <- !app_comm_cons in E.
    apply num_split in E as (-> & _ & E); try notnum. discriminate.
  - exfalso. change (str " ~ ") with (32 :: str "~ ") in E. change (str " to line ") with (32 :: str "to line ") in E. rewrite <- !app_comm_cons in E.
    apply num_split in E as (-> & _ & E); try notnum. discriminate.
  - change (str " to line ") with (32 :: str "to line ") in E. rewrite <- !app_comm_cons in E.
    apply num_split in E as (-> & _ & E); try notnum. apply app_inv_head in E.
    apply num_split in E as (-> & _ & E); try notnum. apply app_inv_head in E. apply fmt_inj in E. auto.
Qed.

(** ** Tokens *)

(** The names tokens print as: no spaces or newlines, all different. *)
Lemma tokenString_nospace : forall t, Forall (fun c => c <> 32) (tokenString t) /\ ~ In 10 (tokenString t).
Proof.
  assert (H : forallb (fun t => forallb (fun c => negb (c =? 32) && negb (c =? 10)) (tokenString t)) allTokens = true) by (vm_compute; reflexivity).
  intros t. rewrite forallb_forall in H. assert (HI : In t allTokens) by (destruct t; vm_compute; tauto).
  specialize (H t HI). rewrite forallb_forall in H. split.
  - apply Forall_forall. intros c Hc. apply H in Hc. apply andb_prop in Hc as [Hc _]. intros ->. discriminate.
  - intros Hc. apply H in Hc. discriminate.
Qed.

Lemma tokenString_inj : forall t t', tokenString t = tokenString t' -> t = t'.
Proof.
  assert (H : forallb (fun t => forallb (fun t' => teq t t' || negb (beq (tokenString t) (tokenString t'))) allTokens) allTokens = true)
    by (vm_compute; reflexivity).
  intros t t' E. rewrite forallb_forall in H. assert (HI : forall t, In t allTokens) by (destruct t0; vm_compute; tauto).
  specialize (H t (HI t)). rewrite forallb_forall in H. specialize (H t' (HI t')).
  unfold teq in H. destruct (token_eq_dec t t'); auto. simpl in H. rewrite E in H.
  assert (R : beq (tokenString t') (tokenString t') = true) by (apply beq_eq; reflexivity). rewrite R in H. discriminate.
Qed.

Lemma fmt_no_newline : forall n, ~ In 10 (fmtD n).
Proof. intros n H. pose proof (fmt_chars n) as F. rewrite Forall_forall in F. apply F in H. revert H. notnum. Qed.

(** What the lex command shows of a token. *)
Definition shown (t : tokInfo) : token * Z * Z * bytes := (tTok t, pLine (tPos t), pColumn (tPos t), tLit t).

Definition printable (t : tokInfo) : Prop := pFile (tPos t) = [] /\ 0 < pColumn (tPos t) /\ ~ In 10 (tLit t).

(** A printed token without its newline. *)
Definition bodyOf (t : tokInfo) : bytes :=
  posString (tPos t) ++ str ": " ++ tokenString (tTok t) ++ str " -> " ++ tLit t.

Lemma tokenLine_body : forall t, tokenLine t = bodyOf t ++ [10].
Proof. intros t. unfold tokenLine, bodyOf. now rewrite <- !app_assoc. Qed.

Lemma body_newline : forall t, printable t -> ~ In 10 (bodyOf t).
Proof.
  intros t (HF & HC & HL) H. unfold bodyOf, posString in H. rewrite HF in H.
  rewrite !in_app_iff in H.
  pose proof (fmt_no_newline (pLine (tPos t))) as N1. pose proof (fmt_no_newline (pColumn (tPos t))) as N2.
  pose proof (proj2 (tokenString_nospace (tTok t))) as N3.
  destruct (0 <? pColumn (tPos t)); rewrite ?in_app_iff in H; simpl in H; intuition discriminate.
Qed.

Lemma body_inj : forall t t', printable t -> printable t' -> bodyOf t = bodyOf t' -> shown t = shown t'.
Proof.
  intros [k [f o l c] w] [k' [f' o' l' c'] w'] (HF & HC & HL) (HF' & HC' & HL'); simpl in *. subst.
  unfold bodyOf, shown, posString; cbn [tTok tPos tLit pFile pLine pColumn].
  apply Z.ltb_lt in HC. apply Z.ltb_lt in HC'. rewrite HC, HC'. intros E. simpl in E. rewrite <- !app_assoc in E. simpl in E.
  apply num_split in E as (-> & _ & E); try notnum.
  apply num_split in E as (-> & _ & E); try notnum.
  injection E as E.
  destruct (split_run (fun c => c <> 32) _ _ _ _ _ _ (proj1 (tokenString_nospace k)) (proj1 (tokenString_nospace k')) (fun H => H eq_refl) (fun H => H eq_refl) E) as (E1 & _ & E2).
  apply tokenString_inj in E1. injection E2 as E2. congruence.
Qed.

Lemma lines_inj : forall ts ts', Forall printable ts -> Forall printable ts' ->
  List.concat (map tokenLine ts) = List.concat (map tokenLine ts') -> map shown ts = map shown ts'.
Proof.
  induction ts as [|t ts IH]; intros [|t' ts'] H H' E; simpl in *; auto.
  - exfalso. rewrite tokenLine_body in E. destruct (bodyOf t'); discriminate.
  - exfalso. rewrite tokenLine_body in E. destruct (bodyOf t); discriminate.
  - rewrite !tokenLine_body, <- !app_assoc in E. simpl in E. inversion H; inversion H'; subst.
    assert (NL : forall t, printable t -> Forall (fun c => c <> 10) (bodyOf t)).
    { intros t0 H0. apply Forall_forall. intros c Hc ->. eapply body_newline; eauto. }
    destruct (split_run (fun c => c <> 10) (bodyOf t) (bodyOf t') 10 10 _ _ (NL t H2) (NL t' H6) (fun H => H eq_refl) (fun H => H eq_refl) E) as (E1 & _ & E2).
    f_equal; auto using body_inj.
Qed.

(** The tokens of a source are printable. *)
Lemma lit_newline : forall k text rest lit, tokText k text rest lit -> ~ In 10 lit.
Proof.
  intros k text rest lit [(_ & _ & _ & ->)|(_ & _ & HN & HL)] HI; [exact HI|]. apply HN.
  inversion HL; subst; simpl; auto using in_or_app.
Qed.

Lemma since_pos : forall s n, 0 <= n -> 0 <= sinceNewline s n.
Proof. induction s as [|c s IH]; intros n H; cbn [sinceNewline]; auto. apply IH. destruct (c =? 10); lia. Qed.

Lemma posAt_column : forall s k, 0 < pColumn (posAt s k).
Proof. intros s k. unfold posAt; cbn [pColumn]. pose proof (since_pos (firstn k s) 0 (Z.le_refl 0)). lia. Qed.

Lemma covers_printable : forall s k ts k', covers s k ts k' -> Forall printable ts.
Proof.
  intros s k ts k' H. induction H; constructor; auto. unfold printable. rewrite H2.
  split; [reflexivity|]. split; [apply posAt_column|]. eapply lit_newline; eauto.
Qed.

(** What the lex command prints for two decodable sources is the same exactly if they
    have the same tokens at the same lines and columns with the same literals. *)
Theorem C63_lex_output : forall X O f p s out oc f' p' s' out' oc', 
  readFile O f p = Some s -> decodable s -> readFile O f' p' = Some s' -> decodable s' ->
  lexCmd X O f [p] = (out, oc) -> lexCmd X O f' [p'] = (out', oc') -> oc <> Crash -> oc' <> Crash ->
  exists ts ts', scanAll X (S (length s)) s = Ok ts /\ scanAll X (S (length s')) s' = Ok ts' /\
    (List.concat out = List.concat out' <-> map shown ts = map shown ts').
Proof.
  intros X O f p s out oc f' p' s' out' oc' R D R' D' E E' NC NC'.
  unfold lexCmd in E, E'. rewrite R in E. rewrite R' in E'.
  destruct (C01_decodable_reaches_eof X s D) as [K|[ts K]]; rewrite K in E; [injection E as <- <-; simpl in NC; congruence|].
  destruct (C01_decodable_reaches_eof X s' D') as [K'|[ts' K']]; rewrite K' in E'; [injection E' as <- <-; simpl in NC'; congruence|].
  injection E as <- _. injection E' as <- _. exists ts, ts'. split; auto. split; auto.
  pose proof (covers_printable _ _ _ _ (C03_tokens_tile_whole_source X s _ ts D K)) as FP.
  pose proof (covers_printable _ _ _ _ (C03_tokens_tile_whole_source X s' _ ts' D' K')) as FP'. split.
  - now apply lines_inj.
  - assert (HL : forall l, Forall printable l -> map tokenLine l = map (fun x => match x with (k, a, b, w) => tokenLine (mkTok k (mkPos [] 0 a b) w) end) (map shown l)).
    { induction l as [|t l IH]; intros HP; simpl; auto. inversion HP; subst. f_equal; auto.
      destruct t as [k [fl o a b] w]. destruct H1 as [H1 _]. simpl in H1. subst. reflexivity. }
    intros HS. rewrite (HL ts FP), (HL ts' FP'). now rewrite HS.
Qed.

(** One line per token: each line ends in the only newline it has. *)
Theorem C63_lex_lines : forall X s ts, decodable s -> scanAll X (S (length s)) s = Ok ts ->
  Forall (fun t => exists b, tokenLine t = b ++ [10] /\ ~ In 10 b) ts.
Proof.
  intros X s ts D E. apply Forall_forall. intros t HI. exists (bodyOf t). split; [apply tokenLine_body|]. apply body_newline.
  pose proof (covers_printable _ _ _ _ (C03_tokens_tile_whole_source X s _ ts D E)) as F. rewrite Forall_forall in F. auto.
Qed.

Example C63_ex : posString (mkPos (str "a.cddl") 7 2 3) = str "a.cddl:2:3" /\ posString (mkPos [] 7 0 0) = str "0" /\
  rangeString (mkRange (mkPos [] 7 2 3) (mkPos [] 9 2 5)) = str "line 2, column 3 ~ 5" /\
  rangeString (mkRange (mkPos [] 7 2 3) (mkPos [] 19 4 5)) = str "line 2, column 3 to line 4, column 5".
Proof. vm_compute. auto. Qed.

Example C63_ex_tokens : exists ts, decodable sample /\ scanAll X0 (S (length sample)) sample = Ok ts /\
  firstn 3 (map tokenLine ts) = [str "1:1: IDENT -> thing" ++ [10]; str "1:7: = -> =" ++ [10]; str "1:9: { -> {" ++ [10]].
Proof. eexists. split; [apply sample_decodable|]. split; [vm_compute; reflexivity|]. vm_compute. reflexivity. Qed.

(** ** Lists of diagnostics *)

(** The list starts where its first diagnostic starts and ends where its last one
    ends; the empty list has no position. *)
Theorem C63_error_list_range :
  (forall d l, errorListStart (d :: l) = dStart d) /\ (forall d l, errorListEnd (l ++ [d]) = dEnd d) /\
  errorListStart [] = zeroPos /\ errorListEnd [] = zeroPos.
Proof.
  repeat split. intros d [|x l]; auto. simpl. now rewrite last_last.
Qed.

Lemma newlines_app' : forall a b, newlines (a ++ b) = newlines a + newlines b.
Proof. induction a as [|c a IH]; intros b; cbn [newlines app]; [lia|]. rewrite IH. lia. Qed.

(** The text of a list is the texts of its diagnostics, one to a line, provided no
    name in a message contains a newline (no literal does, see C63_lex_lines). *)
Theorem C63_error_list_text : forall fmtV quote l,
  errorListString fmtV quote l = List.concat (map (fun d => str "parser error: " ++ renderMsg fmtV quote (dMsg d) ++ [10]) l) /\
  (Forall (fun d => newlines (renderMsg fmtV quote (dMsg d)) = 0) l -> newlines (errorListString fmtV quote l) = zlen l).
Proof.
  intros fmtV quote l. split.
  - unfold errorListString. rewrite flat_map_concat_map. reflexivity.
  - intros H. induction H as [|d l H _ IH]; [reflexivity|]. unfold errorListString in *. cbn [flat_map]. rewrite newlines_app', IH.
    unfold diagString. rewrite !newlines_app', H. unfold zlen. cbn [length]. change (newlines (str "parser error: ")) with 0. change (newlines [10]) with 1. lia.
Qed.

(** A diagnostic with its place. *)
Theorem C63_diagnostic : forall fmtV quote d d', dMsg d = dMsg d' ->
  (diagDiagnostic fmtV quote d = diagDiagnostic fmtV quote d' <->
   pLine (dStart d) = pLine (dStart d') /\ pColumn (dStart d) = pColumn (dStart d') /\
   pLine (dEnd d) = pLine (dEnd d') /\ pColumn (dEnd d) = pColumn (dEnd d')).
Proof.
  intros fmtV quote [a b m] [a' b' m']; simpl. intros ->. unfold diagDiagnostic, diagString. cbn [dStart dEnd dMsg].
  rewrite <- C63_range. split; intros H; [|now rewrite H].
  apply app_inv_head in H. now apply app_inv_head in H.
Qed.

Example C63_ex_list : forall fmtV quote, 
  errorListString fmtV quote [mkDiag (mkPos [] 4 1 5) (mkPos [] 5 1 6) (MNotExist (str "a")); mkDiag (mkPos [] 9 2 1) (mkPos [] 9 2 1) MTagMajor] =
  str "parser error: identifier a referenced does not exist" ++ [10] ++ str "parser error: failed to parse tag major" ++ [10].
Proof. intros. vm_compute. reflexivity. Qed.
