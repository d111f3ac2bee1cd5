(** C26: diagnostics point into the source, and every one is reported. *)
From Coq Require Import String.
From Verif Require Import Base Utf8 Token Ext Lexer LexSpec LexSpec2 Ast Env Diag Parser ParseStream ParseSound ParseSource ParseTree Repl Codegen Cli Props_Lexer.
Open Scope string_scope.
Open Scope list_scope.
Open Scope Z_scope.

(** ** Specification *)

(** [a ++ b] is the whole line of [s] around byte number [k], and [a] is the part of it
    before that byte. *)
Definition lineAround (s : bytes) (k : nat) (pre a b post : bytes) : Prop :=
  s = pre ++ a ++ b ++ post /\ k = length (pre ++ a) /\ ~ In 10 (a ++ b) /\
  (pre = [] \/ last pre 0 = 10) /\ (post = [] \/ hd 0 post = 10).

(** The report of a diagnostic: its message, the line with its number, and a mark below
    the byte where it starts. fmt does not pad beyond a million. *)
Definition Reported (C : CliExt) (s : bytes) (d : diag) (text : bytes) : Prop :=
  exists pre a b post, lineAround s (Z.to_nat (pOffset (dStart d))) pre a b post /\
    let no := str "    " ++ fmtD (1 + newlines pre) ++ str " | " in
    text = diagString (cFmtV C) (cQuote C) d ++ [10] ++ no ++ a ++ b ++ [10] ++
           (if zlen no + zlen a + 1 <=? 1000000 then repeat 32 (length no + length a) ++ [203; 156]
            else str "%!(BADWIDTH)" ++ [203; 156]).

(** ** Lines *)

Lemma line_before : forall u, exists pre a, u = pre ++ a /\ ~ In 10 a /\ (pre = [] \/ last pre 0 = 10) /\
  newlines u = newlines pre /\ forall n, sinceNewline u n = (if newlines u =? 0 then n else 0) + zlen a.
Proof.
  assert (SN : forall u x n, sinceNewline (u ++ [x]) n = if x =? 10 then 0 else sinceNewline u n + 1).
  { induction u as [|y u IH]; intros x n; cbn [sinceNewline app]; auto. }
  induction u as [|x u IH] using rev_ind.
  - exists [], []. split; [reflexivity|]. split; [intros []|]. split; [auto|]. split; [reflexivity|].
    intros n. cbn. lia.
  - destruct IH as (pre & a & -> & N & P & E & S). destruct (Z.eqb_spec x 10) as [->|NE].
    + exists ((pre ++ a) ++ [10]), []. rewrite app_nil_r. split; [reflexivity|]. split; [intros []|].
      split; [right; apply last_last|]. split; [reflexivity|]. intros n. rewrite SN. cbn [Z.eqb].
      rewrite newlines_app. cbn [newlines]. pose proof (newlines_pos (pre ++ a)).
      destruct (Z.eqb_spec (newlines (pre ++ a) + ((if 10 =? 10 then 1 else 0) + 0)) 0); [cbn in *; lia|reflexivity].
    + exists pre, (a ++ [x]). rewrite app_assoc. split; [reflexivity|]. split.
      { rewrite in_app_iff. intros [H|[H|[]]]; congruence. }
      split; [auto|]. rewrite newlines_app, E. cbn [newlines]. apply Z.eqb_neq in NE. rewrite NE.
      split; [lia|]. intros n. rewrite SN, NE, S, E. unfold zlen. rewrite app_length. cbn [length].
      replace (newlines pre + (0 + 0)) with (newlines pre) by lia. rewrite Nat2Z.inj_add. destruct (newlines pre =? 0); cbn; lia.
Qed.

Lemma line_after : forall v, exists b post, v = b ++ post /\ ~ In 10 b /\ (post = [] \/ hd 0 post = 10).
Proof.
  induction v as [|x v (b & post & -> & N & P)].
  - exists [], []. auto.
  - destruct (Z.eqb_spec x 10) as [->|NE].
    + exists [], (10 :: b ++ post). simpl; auto.
    + exists (x :: b), post. split; [reflexivity|]. split; auto. intros [H|H]; congruence.
Qed.

Lemma split_length : forall s, zlen (split 10 s) = 1 + newlines s.
Proof.
  induction s as [|x s IH]; cbn [split newlines]; [reflexivity|]. unfold zlen in *. destruct (x =? 10).
  - cbn [length]. lia.
  - pose proof (newlines_pos s). destruct (split 10 s); cbn [length] in *; lia.
Qed.

Lemma split_line : forall l post, ~ In 10 l -> post = [] \/ hd 0 post = 10 -> exists r, split 10 (l ++ post) = l :: r.
Proof.
  induction l as [|x l IH]; intros post N P; cbn [app].
  - destruct post as [|y post]; [exists []; reflexivity|]. destruct P as [P|P]; [discriminate|]. cbn in P. subst y.
    cbn [split]. rewrite Z.eqb_refl. eauto.
  - destruct (IH post) as [r E]; auto. { intros H; apply N; simpl; auto. }
    cbn [split]. assert (NE : x <> 10) by (intros ->; apply N; simpl; auto). apply Z.eqb_neq in NE. rewrite NE, E. eauto.
Qed.

Lemma split_nth : forall pre l post, pre = [] \/ last pre 0 = 10 -> ~ In 10 l -> post = [] \/ hd 0 post = 10 ->
  nth (Z.to_nat (newlines pre)) (split 10 (pre ++ l ++ post)) [] = l.
Proof.
  induction pre as [|x pre IH]; intros l post HP N HQ.
  - cbn [app newlines]. destruct (split_line l post N HQ) as [r E]. rewrite E. reflexivity.
  - destruct HP as [HP|HP]; [discriminate|]. cbn [app newlines split]. destruct (Z.eqb_spec x 10) as [->|NE].
    + rewrite Z2Nat.inj_add by (pose proof (newlines_pos pre); lia). cbn [Z.to_nat Pos.to_nat Pos.iter_op Nat.add nth].
      apply IH; auto. destruct pre; [left; reflexivity|right; exact HP].
    + destruct pre as [|y pre]; [cbn in HP; congruence|].
      assert (HP' : last (y :: pre) 0 = 10) by exact HP.
      specialize (IH l post (or_intror HP') N HQ). cbn [Z.add].
      assert (HN : exists m, Z.to_nat (newlines (y :: pre)) = S m).
      { assert (1 <= newlines (y :: pre)).
        { clear - HP'. revert y HP'. induction pre as [|z pre IHp]; intros y HP; cbn in HP |- *.
          - subst y. cbn. lia.
          - specialize (IHp z HP). cbn [newlines] in IHp. destruct (y =? 10); lia. }
        exists (Z.to_nat (newlines (y :: pre) - 1)). lia. }
      destruct HN as [m Hm]. rewrite Hm in *. destruct (split 10 ((y :: pre) ++ l ++ post)) as [|h t] eqn:ES.
      * pose proof (split_length ((y :: pre) ++ l ++ post)) as K. rewrite ES in K. unfold zlen in K. cbn [length] in K.
        pose proof (newlines_pos ((y :: pre) ++ l ++ post)). lia.
      * exact IH.
Qed.

Lemma around : forall s k, (k <= length s)%nat -> exists pre a b post, lineAround s k pre a b post /\
  1 + newlines pre = pLine (posAt s k) /\ 1 + zlen a = pColumn (posAt s k).
Proof.
  intros s k HK. destruct (line_before (firstn k s)) as (pre & a & E & N & P & E2 & S).
  destruct (line_after (skipn k s)) as (b & post & E3 & N3 & P3).
  exists pre, a, b, post. unfold lineAround, posAt. cbn [pLine pColumn]. rewrite E2, S, E2.
  split; [|split; [reflexivity|destruct (newlines pre =? 0); lia]].
  split. { rewrite app_assoc, <- E, <- E3. symmetry. apply firstn_skipn. }
  split. { rewrite <- E, firstn_length. lia. }
  split; [|auto]. rewrite in_app_iff. tauto.
Qed.

(** ** Diagnostics *)

Definition posIn (s : bytes) (p : position) : Prop := exists k, (k <= length s)%nat /\ p = posAt s k.

Lemma covers_in_source : forall s k ts k', covers s k ts k' -> (k <= length s)%nat -> Forall (fun t => posIn s (tPos t)) ts.
Proof.
  intros s k ts k' H. induction H as [|k g text rest t ts k' E B T P C IH]; intros HK; constructor.
  - exists (k + length g)%nat. split; auto. apply (f_equal (@length Z)) in E. rewrite skipn_length, !app_length in E. lia.
  - apply IH. apply (f_equal (@length Z)) in E. rewrite skipn_length, !app_length in E. lia.
Qed.

(** Every diagnostic starts at the position of a byte of the source, or at its end. *)
Theorem C26_positions : forall X s e fuel root ds p', decodable s -> (parseFuel s <= fuel)%nat ->
  parseSource X fuel s e = Ok ((root, Some ds), p') ->
  ds <> [] /\ Forall (fun d => exists k, (k <= length s)%nat /\ dStart d = posAt s k) ds.
Proof.
  intros X s e fuel root ds p' D HFu E.
  destruct (new_str X s D) as (ts & f & k & HS & HC & _ & HL & HE).
  assert (HF : (length ts <= fuel)%nat) by (unfold parseFuel in HFu; lia).
  assert (PO : posOk (posIn s) ts f).
  { split; [eapply covers_in_source; eauto; lia|]. intros HN. destruct f; [|congruence]. destruct HE as [-> _].
    exists (length s). split; [lia|reflexivity]. }
  pose proof (source_post X (posIn s) s e fuel ts f HS HF PO) as H.
  rewrite E in H. cbn [wp] in H.
  destruct H as (t2 & l2 & H2 & [(_ & H3 & _)|(H3 & rules' & tk & df & ds' & H4 & H5 & H6 & _)]); [discriminate|].
  inversion H4 as [[Hr Hc]]. destruct (perrors p') as [|d l] eqn:EP; [discriminate|]. simpl in Hc. inversion Hc; subst.
  split; [discriminate|]. exact H6.
Qed.

Lemma fmtD_nonempty : forall n, fmtD n <> [].
Proof.
  assert (K : forall fuel n acc, (acc <> [] \/ fuel <> O) -> digitsPos fuel n acc <> []).
  { induction fuel as [|fuel IH]; intros n acc H; cbn [digitsPos]; [destruct H; congruence|].
    destruct (n <? 10); [discriminate|]. apply IH. left. discriminate. }
  intros n. unfold fmtD. destruct (n <? 0); [discriminate|]. apply K. right. discriminate.
Qed.

Lemma report_at : forall C s d k, (k <= length s)%nat -> dStart d = posAt s k ->
  exists t, report C (split 10 s) d = Ok [t] /\ Reported C s d t.
Proof.
  intros C s d k HK E. destruct (around s k HK) as (pre & a & b & post & HL & H1 & H2).
  pose proof HL as HL0. destruct HL as (Hs & Hk & HN & HP & HQ).
  unfold report. rewrite E, split_length.
  assert (L : pLine (posAt s k) <=? 1 + newlines s = true).
  { apply Z.leb_le. pose proof (posAt_line s k) as Q. unfold lineIn in Q. lia. }
  rewrite L. pose proof (newlines_pos pre).
  assert (L2 : pLine (posAt s k) <=? 0 = false) by (apply Z.leb_gt; lia).
  rewrite L2. eexists. split; [reflexivity|].
  exists pre, a, b, post. rewrite E. cbn [posAt pOffset]. rewrite Nat2Z.id. split; [exact HL0|]. cbn zeta.
  rewrite <- H1, <- H2. replace (1 + newlines pre - 1) with (newlines pre) by lia.
  assert (Hn : nth (Z.to_nat (newlines pre)) (split 10 s) [] = a ++ b).
  { rewrite Hs, (app_assoc a b post). apply split_nth; auto. }
  rewrite Hn. unfold linePrefix. set (no := str "    " ++ fmtD (1 + newlines pre) ++ str " | ").
  unfold mark, padStar. f_equal. f_equal. f_equal. rewrite <- app_assoc. do 3 f_equal.
  assert (zlen no >= 0) by (unfold zlen; lia). assert (zlen a >= 0) by (unfold zlen; lia).
  replace (1 + zlen a + zlen no) with (zlen no + zlen a + 1) by lia.
  assert (B1 : zlen no + zlen a + 1 <? -1000000 = false) by (apply Z.ltb_ge; lia). rewrite B1. cbn [orb].
  rewrite Z.leb_antisym. destruct (1000000 <? zlen no + zlen a + 1); cbn [negb]; [reflexivity|].
  assert (B2 : zlen no + zlen a + 1 <? 0 = false) by (apply Z.ltb_ge; lia). rewrite B2.
  do 2 f_equal. unfold zlen. lia.
Qed.

Lemma stringer_fold : forall C s ds acc, Forall (fun d => exists k, (k <= length s)%nat /\ dStart d = posAt s k) ds ->
  exists outs, fold_left (fun acc d => outs <- acc;; o <- report C (split 10 s) d;; Ok (outs ++ o)) ds (Ok acc) = Ok (acc ++ outs) /\
    Forall2 (Reported C s) ds outs.
Proof.
  intros C s ds. induction ds as [|d ds IH]; intros acc H; cbn [fold_left].
  - exists []. rewrite app_nil_r. split; [reflexivity|constructor].
  - inversion H as [|? ? (k & HK & E) HR]; subst. destruct (report_at C s d k HK E) as (t & E1 & R).
    cbn [rbind]. rewrite E1. cbn [rbind]. destruct (IH (acc ++ [t]) HR) as (outs & E2 & F).
    exists (t :: outs). rewrite E2, <- app_assoc. split; [reflexivity|constructor; auto].
Qed.

(** Both copies of errorStringer return on the diagnostics of ParseFile, with one report
    per diagnostic, in order. *)
Theorem C26_reports : forall X C s e fuel root ds p', decodable s -> (parseFuel s <= fuel)%nat ->
  parseSource X fuel s e = Ok ((root, Some ds), p') ->
  exists outs, errorStringer C s ds = Ok outs /\ Forall2 (Reported C s) ds outs.
Proof.
  intros X C s e fuel root ds p' D HF E. destruct (C26_positions _ _ _ _ _ _ _ D HF E) as [_ HP].
  destruct (stringer_fold C s ds [] HP) as (outs & E1 & F). exists outs. split; auto.
Qed.

(** For diagnostics from elsewhere: a line number above the number of lines is passed
    over in silence, one below 1 crashes. *)
Theorem C26_foreign : forall C s d,
  (1 + newlines s < pLine (dStart d) -> errorStringer C s [d] = Ok []) /\
  (pLine (dStart d) <= 0 -> errorStringer C s [d] = Panic).
Proof.
  intros C s d. unfold errorStringer. cbn [fold_left rbind]. unfold report. rewrite split_length.
  pose proof (newlines_pos s). split; intros H0.
  - assert (L : pLine (dStart d) <=? 1 + newlines s = false) by (apply Z.leb_gt; lia). rewrite L. reflexivity.
  - assert (L : pLine (dStart d) <=? 1 + newlines s = true) by (apply Z.leb_le; lia).
    assert (L2 : pLine (dStart d) <=? 0 = true) by (apply Z.leb_le; lia). rewrite L, L2. reflexivity.
Qed.

(** ** Example *)

(** Two lines, with an error at the fifth column of the second one. *)
Definition badDoc : bytes := str "a = int" ++ 10 :: str "b = )".

Definition sampleCli : CliExt :=
  mkCli (mkGenExt (fun w => w) (fun w => negb (beq w [])) (fun w => w) (fun _ => []) false) (fun _ _ => str "text")
        (fun _ => None) (fun _ => None) (fun _ _ => None) (fun _ => []) (fun w => w) (fun _ => Some (str "{}"))
        [str "/bin/cddlc"; str "generate"].

Definition reportsOf (s : bytes) : res (list bytes) :=
  '(r, _) <- parse Props_Lexer.X0 s;; errorStringer sampleCli s (match snd r with Some ds => ds | None => [] end).

Example C26_ex : reportsOf badDoc =
  Ok [str "parser error: unexpected token ) at line 2, column 5" ++ 10 :: str "    2 | b = )" ++ 10 :: repeat 32 12 ++ [203; 156]].
Proof. vm_compute. reflexivity. Qed.
