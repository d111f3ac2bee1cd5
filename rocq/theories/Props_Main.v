(** Properties C70 - C72: the process, its input, its output and its exit status. *)
From Coq Require Import String.
From Verif Require Import Base Utf8 Token Ext Strconv Lexer LexSpec LexSpec2 LexSeq LexSpec3 Ast Env Diag Parser Print Repl Codegen Cli Main ParseSpec ParseStream
  ParseFacts ParseSource ParseFrame ParseShape ParseLoose EnvProofs ParseTried CliProofs Props_Lexer Props_Parser Props_Repl Props_Report Props_Cli Props_LexFull Props_Ends.
Open Scope string_scope.
Open Scope list_scope.
Open Scope Z_scope.

(** ** C70: lines *)

(** A line without the carriage return it may end in. *)
Definition noCR (l l' : bytes) : Prop := l = l' ++ [13] \/ (l = l' /\ forall u, l <> u ++ [13]).

(** [Reads s ls]: from the input [s] the lines [ls] are read. A line ends at a newline or at
    the end of the input, and has less than 65536 bytes; at a longer one reading ends. *)
Inductive Reads : bytes -> list bytes -> Prop :=
| Rd_end : Reads [] []
| Rd_line : forall l l' rest ls, ~ In 10 l -> zlen l < 65536 -> noCR l l' -> Reads rest ls -> Reads (l ++ 10 :: rest) (l' :: ls)
| Rd_last : forall l l', l <> [] -> ~ In 10 l -> zlen l < 65536 -> noCR l l' -> Reads l [l']
| Rd_long : forall l rest, ~ In 10 l -> 65536 <= zlen l -> (rest = [] \/ exists r, rest = 10 :: r) -> Reads (l ++ rest) [].

Lemma dropCR_spec : forall l l', noCR l l' <-> dropCR l = l'.
Proof.
  intros l l'. unfold noCR, dropCR. destruct l as [|x l] using rev_ind.
  - cbn. split; [intros [E|[E _]]; [destruct l'; discriminate|auto]|intros <-; right; split; auto; intros [|? ?] K; discriminate].
  - clear IHl. rewrite last_last, removelast_last. destruct (x =? 13) eqn:E.
    + apply Z.eqb_eq in E. subst x. split.
      * intros [K|[_ K]]; [apply app_inj_tail in K; tauto|exfalso; eapply K; reflexivity].
      * intros <-. now left.
    + apply Z.eqb_neq in E. split.
      * intros [K|[K _]]; auto. apply app_inj_tail in K as [_ ->]. congruence.
      * intros <-. right. split; auto. intros u K. apply app_inj_tail in K as [_ ->]. congruence.
Qed.

Lemma split_cons : forall c a b, ~ In c a -> split c (a ++ c :: b) = a :: split c b.
Proof.
  intros c a b. induction a as [|x a IH]; intros N; cbn [app split].
  - now rewrite Z.eqb_refl.
  - destruct (x =? c) eqn:E; [apply Z.eqb_eq in E; subst; exfalso; apply N; now left|]. rewrite IH; auto. intros K. apply N. now right.
Qed.

Lemma split_nonempty : forall c s, split c s <> [].
Proof. intros c s. destruct s; [discriminate|]. cbn [split]. destruct (_ =? _); [discriminate|]. now destruct (split c s). Qed.

Lemma cut_first : forall s, ~ In 10 s \/ exists a b, s = a ++ 10 :: b /\ ~ In 10 a.
Proof.
  induction s as [|x s IH]; [left; intros []|]. destruct (Z.eq_dec x 10) as [->|N].
  - right. exists [], s. split; auto.
  - destruct IH as [IH|(a & b & -> & IH)].
    + left. intros [K|K]; auto.
    + right. exists (x :: a), b. split; auto. intros [K|K]; auto.
Qed.

Theorem C70_lines : forall s ls, Reads s ls <-> scanLines s = ls.
Proof.
  unfold scanLines. split.
  - induction 1 as [|l l' rest ls N L C R IH|l l' NE N L C|l rest N L E].
    + reflexivity.
    + rewrite split_cons by auto. cbn [deliver]. destruct (maxTokenSize <=? zlen l) eqn:K; [unfold maxTokenSize in K; lia|].
      apply dropCR_spec in C. rewrite C, IH. pose proof (split_nonempty 10 rest). destruct (split 10 rest); [congruence|reflexivity].
    + rewrite split_none by auto. cbn [deliver]. destruct (maxTokenSize <=? zlen l) eqn:K; [unfold maxTokenSize in K; lia|].
      apply dropCR_spec in C. rewrite C. destruct l; [congruence|reflexivity].
    + destruct E as [->|[r ->]].
      * rewrite app_nil_r, split_none by auto. cbn [deliver]. destruct (maxTokenSize <=? zlen l) eqn:K; [reflexivity|unfold maxTokenSize in K; lia].
      * rewrite split_cons by auto. cbn [deliver]. destruct (maxTokenSize <=? zlen l) eqn:K; [reflexivity|unfold maxTokenSize in K; lia].
  - intros <-. remember (length s) as n eqn:EN. assert (LE : (length s <= n)%nat) by lia. clear EN. revert s LE.
    induction n as [|n IH]; intros s LE; [destruct s; [constructor|cbn in LE; lia]|].
    destruct (cut_first s) as [N|(a & b & -> & N)].
    + rewrite split_none by auto. cbn [deliver]. destruct (maxTokenSize <=? zlen s) eqn:K; unfold maxTokenSize in K.
      * pattern s at 1. rewrite <- (app_nil_r s). apply Rd_long; auto; lia.
      * destruct s as [|x s]; [constructor|]. apply Rd_last; auto; [discriminate|lia|now apply dropCR_spec].
    + rewrite split_cons by auto. cbn [deliver]. destruct (maxTokenSize <=? zlen a) eqn:K; unfold maxTokenSize in K.
      * apply Rd_long; auto; [lia|eauto].
      * pose proof (split_nonempty 10 b) as NE. specialize (IH b). rewrite app_length in LE. cbn in LE.
        destruct (split 10 b) eqn:S; [congruence|]. constructor; auto; [lia|now apply dropCR_spec|apply IH; lia].
Qed.

Example C70_lines_ex : Reads (str "a = 1" ++ [13; 10; 10] ++ str ":exit") [str "a = 1"; []; str ":exit"].
Proof. apply C70_lines. reflexivity. Qed.

(** ** C70: blanks around a line *)

(** The code points of white space. *)
Definition spaces : list Z :=
  [9; 10; 11; 12; 13; 32; 133; 160; 5760; 8192; 8193; 8194; 8195; 8196; 8197; 8198; 8199; 8200; 8201; 8202; 8232; 8233; 8239; 8287; 12288].

(** Texts of white space only, in UTF-8. *)
Definition blankText (s : bytes) : Prop := exists rs, Forall (fun r => In r spaces) rs /\ s = flat_map encodeRune rs.

(** Texts that neither start nor end with white space. *)
Definition bare (t : bytes) : Prop := forall r u, In r spaces -> t <> encodeRune r ++ u /\ t <> u ++ encodeRune r.

Lemma space_iff : forall r, isSpaceRune r = true <-> In r spaces.
Proof.
  intros r. split.
  - unfold isSpaceRune, inRangeB. intros H. unfold spaces. simpl. lia.
  - intros H. unfold spaces in H. simpl in H. repeat (destruct H as [<-|H]; [reflexivity|]). destruct H.
Qed.

Lemma space_decode : forall r u, In r spaces -> decodeRune (encodeRune r ++ u) = (r, zlen (encodeRune r)).
Proof. intros r u H. unfold spaces in H. simpl in H. repeat (destruct H as [<-|H]; [reflexivity|]). destruct H. Qed.

Lemma space_decode_last : forall r u, In r spaces -> decodeLastRune (u ++ encodeRune r) = (r, zlen (encodeRune r)).
Proof.
  intros r u H. unfold decodeLastRune. rewrite rev_app_distr. unfold spaces in H. simpl in H.
  repeat (destruct H as [<-|H]; [reflexivity|]). destruct H.
Qed.

(** Decoding is the inverse of encoding. *)
Lemma decode_encode : forall s r w, decodeRune s = (r, w) -> r <> RuneError -> 0 <= r ->
  exists u, s = encodeRune r ++ u /\ w = zlen (encodeRune r).
Proof.
  intros s r w H NE NN. unfold decodeRune in H. destruct s as [|p0 r0]; [inversion H; congruence|].
  destruct (p0 <? 128) eqn:E0.
  { inversion H; subst. exists r0. unfold encodeRune. replace ((0 <=? r) && (r <? 128)) with true by lia. auto. }
  destruct (utf8Lead p0) as [[[sz lo] hi]|] eqn:EL; [|inversion H; congruence].
  unfold utf8Lead in EL.
  assert (KL : (sz = 2 /\ 194 <= p0 <= 223 /\ lo = 128 /\ hi = 191) \/ (sz = 3 /\ 224 <= p0 <= 239 /\ 128 <= lo /\ hi <= 191 /\ (p0 = 224 -> lo = 160) /\ (p0 = 237 -> hi = 159)) \/
               (sz = 4 /\ 240 <= p0 <= 244 /\ 128 <= lo /\ hi <= 191 /\ (p0 = 240 -> lo = 144) /\ (p0 = 244 -> hi = 143))).
  { unfold inRangeB in EL.
    repeat match type of EL with (if ?c then _ else _) = _ => destruct c eqn:?; [inversion EL; subst; clear EL; try (left; lia); try (right; left; lia); right; right; lia|] end. discriminate. }
  clear EL. destruct r0 as [|b1 r1]; [inversion H; congruence|].
  destruct KL as [(-> & HP & -> & ->)|[(-> & HP & HLo & HHi & H1 & H2)|(-> & HP & HLo & HHi & H1 & H2)]]; cbn [Z.eqb Pos.eqb] in H.
  - unfold inRangeB in H. destruct ((128 <=? b1) && (b1 <=? 191)) eqn:EB; [|inversion H; congruence]. inversion H; subst. clear H. exists r1.
    assert (M0 : p0 mod 32 = p0 - 192) by (symmetry; apply Zmod_unique with 6; lia).
    assert (M1 : b1 mod 64 = b1 - 128) by (symmetry; apply Zmod_unique with 2; lia).
    rewrite M0, M1 in *. set (r := (p0 - 192) * 64 + (b1 - 128)) in *.
    assert (D : r / 64 = p0 - 192) by (symmetry; apply Zdiv_unique with (b1 - 128); unfold r; lia).
    assert (M : r mod 64 = b1 - 128) by (symmetry; apply Zmod_unique with (p0 - 192); unfold r; lia).
    unfold encodeRune. replace ((0 <=? r) && (r <? 128)) with false by (unfold r; lia). replace ((0 <=? r) && (r <? 2048)) with true by (unfold r; lia).
    rewrite D, M. cbn [app]. split; [f_equal; [lia|f_equal; lia]|reflexivity].
  - destruct r1 as [|b2 r2]; [inversion H; congruence|]. unfold inRangeB in H.
    destruct (((lo <=? b1) && (b1 <=? hi)) && ((128 <=? b2) && (b2 <=? 191))) eqn:EB; [|inversion H; congruence]. inversion H; subst. clear H. exists r2.
    assert (M0 : p0 mod 16 = p0 - 224) by (symmetry; apply Zmod_unique with 14; lia).
    assert (M1 : b1 mod 64 = b1 - 128) by (symmetry; apply Zmod_unique with 2; lia).
    assert (M2 : b2 mod 64 = b2 - 128) by (symmetry; apply Zmod_unique with 2; lia).
    rewrite M0, M1, M2 in *. set (r := (p0 - 224) * 4096 + (b1 - 128) * 64 + (b2 - 128)) in *.
    assert (D1 : r / 4096 = p0 - 224) by (symmetry; apply Zdiv_unique with ((b1 - 128) * 64 + (b2 - 128)); unfold r; lia).
    assert (D2 : r / 64 = (p0 - 224) * 64 + (b1 - 128)) by (symmetry; apply Zdiv_unique with (b2 - 128); unfold r; lia).
    assert (D3 : ((p0 - 224) * 64 + (b1 - 128)) mod 64 = b1 - 128) by (symmetry; apply Zmod_unique with (p0 - 224); lia).
    assert (D4 : r mod 64 = b2 - 128) by (symmetry; apply Zmod_unique with ((p0 - 224) * 64 + (b1 - 128)); unfold r; lia).
    assert (RL : 2048 <= r) by (unfold r; destruct (Z.eq_dec p0 224); [specialize (H1 e)|]; lia).
    assert (RS : ~ (55296 <= r <= 57343)) by (unfold r; destruct (Z.eq_dec p0 237); [specialize (H2 e)|]; lia).
    assert (RU : r < 65536) by (unfold r; lia).
    unfold encodeRune, inRangeB. replace ((0 <=? r) && (r <? 128)) with false by lia. replace ((0 <=? r) && (r <? 2048)) with false by lia.
    replace ((r <? 0) || (1114111 <? r) || ((55296 <=? r) && (r <=? 57343))) with false by lia. replace (r <? 65536) with true by lia.
    rewrite D1, D2, D3, D4. cbn [app]. split; [f_equal; [lia|f_equal; [lia|f_equal; lia]]|reflexivity].
  - destruct r1 as [|b2 r2]; [inversion H; congruence|]. destruct r2 as [|b3 r3]; [inversion H; congruence|]. unfold inRangeB in H.
    destruct (((lo <=? b1) && (b1 <=? hi)) && ((128 <=? b2) && (b2 <=? 191)) && ((128 <=? b3) && (b3 <=? 191))) eqn:EB; [|inversion H; congruence]. inversion H; subst. clear H. exists r3.
    assert (M0 : p0 mod 8 = p0 - 240) by (symmetry; apply Zmod_unique with 30; lia).
    assert (M1 : b1 mod 64 = b1 - 128) by (symmetry; apply Zmod_unique with 2; lia).
    assert (M2 : b2 mod 64 = b2 - 128) by (symmetry; apply Zmod_unique with 2; lia).
    assert (M3 : b3 mod 64 = b3 - 128) by (symmetry; apply Zmod_unique with 2; lia).
    rewrite M0, M1, M2, M3 in *. set (r := (p0 - 240) * 262144 + (b1 - 128) * 4096 + (b2 - 128) * 64 + (b3 - 128)) in *.
    assert (D1 : r / 262144 = p0 - 240) by (symmetry; apply Zdiv_unique with ((b1 - 128) * 4096 + (b2 - 128) * 64 + (b3 - 128)); unfold r; lia).
    assert (D2 : r / 4096 = (p0 - 240) * 64 + (b1 - 128)) by (symmetry; apply Zdiv_unique with ((b2 - 128) * 64 + (b3 - 128)); unfold r; lia).
    assert (D3 : ((p0 - 240) * 64 + (b1 - 128)) mod 64 = b1 - 128) by (symmetry; apply Zmod_unique with (p0 - 240); lia).
    assert (D4 : r / 64 = (p0 - 240) * 4096 + (b1 - 128) * 64 + (b2 - 128)) by (symmetry; apply Zdiv_unique with (b3 - 128); unfold r; lia).
    assert (D5 : ((p0 - 240) * 4096 + (b1 - 128) * 64 + (b2 - 128)) mod 64 = b2 - 128) by (symmetry; apply Zmod_unique with ((p0 - 240) * 64 + (b1 - 128)); lia).
    assert (D6 : r mod 64 = b3 - 128) by (symmetry; apply Zmod_unique with ((p0 - 240) * 4096 + (b1 - 128) * 64 + (b2 - 128)); unfold r; lia).
    assert (RL : 65536 <= r) by (unfold r; destruct (Z.eq_dec p0 240); [specialize (H1 e)|]; lia).
    assert (RU : r <= 1114111) by (unfold r; destruct (Z.eq_dec p0 244); [specialize (H2 e)|]; lia).
    unfold encodeRune, inRangeB. replace ((0 <=? r) && (r <? 128)) with false by lia. replace ((0 <=? r) && (r <? 2048)) with false by lia.
    replace ((r <? 0) || (1114111 <? r) || ((55296 <=? r) && (r <=? 57343))) with false by lia. replace (r <? 65536) with false by lia.
    rewrite D1, D2, D3, D4, D5, D6. cbn [app]. split; [f_equal; [lia|f_equal; [lia|f_equal; [lia|f_equal; lia]]]|reflexivity].
Qed.

Lemma space_proper : forall r, In r spaces -> r <> RuneError /\ 0 <= r.
Proof. intros r H. unfold spaces, RuneError in *. simpl in H. lia. Qed.

Lemma decode_space : forall s r w, decodeRune s = (r, w) -> In r spaces -> exists u, s = encodeRune r ++ u /\ w = zlen (encodeRune r).
Proof. intros s r w H I. destruct (space_proper _ I). eapply decode_encode; eauto. Qed.

Lemma whole_space : forall s r w, decodeWhole s = (r, w) -> In r spaces -> s = encodeRune r /\ w = zlen (encodeRune r).
Proof.
  intros s r w H I. unfold decodeWhole in H. destruct (decodeRune s) as [r' w'] eqn:E. destruct (w' =? zlen s) eqn:EW.
  - inversion H; subst. destruct (decode_space _ _ _ E I) as (u & -> & ->). split; auto.
    apply Z.eqb_eq in EW. unfold zlen in EW. rewrite app_length in EW. destruct u; [apply app_nil_r|cbn [length] in EW; lia].
  - inversion H; subst. destruct (space_proper _ I). congruence.
Qed.

Lemma last_space : forall s r w, decodeLastRune s = (r, w) -> In r spaces -> exists u, s = u ++ encodeRune r /\ w = zlen (encodeRune r).
Proof.
  intros s r w H I. destruct (space_proper _ I) as [NE NN]. unfold decodeLastRune in H. rewrite <- (rev_involutive s). destruct (rev s) as [|b1 t]; [inversion H; congruence|].
  destruct (b1 <? 128) eqn:E1.
  { inversion H; subst. exists (rev t). cbn [rev]. unfold encodeRune. replace ((0 <=? r) && (r <? 128)) with true by lia. auto. }
  destruct t as [|b2 t]; [inversion H; congruence|]. destruct (runeStart b2).
  { destruct (whole_space _ _ _ H I) as [E ->]. rewrite <- E. exists (rev t). cbn [rev]. rewrite <- app_assoc. auto. }
  destruct t as [|b3 t]; [inversion H; congruence|]. destruct (runeStart b3).
  { destruct (whole_space _ _ _ H I) as [E ->]. rewrite <- E. exists (rev t). cbn [rev]. rewrite <- !app_assoc. auto. }
  destruct t as [|b4 t]; [inversion H; congruence|]. destruct (runeStart b4); [|inversion H; congruence].
  destruct (whole_space _ _ _ H I) as [E ->]. rewrite <- E. exists (rev t). cbn [rev]. rewrite <- !app_assoc. auto.
Qed.

Lemma blankText_cons : forall r s, In r spaces -> blankText s -> blankText (encodeRune r ++ s).
Proof. intros r s I (rs & F & ->). exists (r :: rs). split; [constructor; auto|reflexivity]. Qed.

Lemma blankText_snoc : forall r s, In r spaces -> blankText s -> blankText (s ++ encodeRune r).
Proof.
  intros r s I (rs & F & ->). exists (rs ++ [r]). split; [apply Forall_app; split; auto|]. rewrite flat_map_app. cbn. now rewrite app_nil_r.
Qed.

Lemma skip_zlen : forall (a b : bytes), skipn (Z.to_nat (zlen a)) (a ++ b) = b.
Proof. intros a b. unfold zlen. rewrite Nat2Z.id. induction a; auto. Qed.

Lemma first_zlen : forall (a b : bytes), firstn (length (a ++ b) - Z.to_nat (zlen b)) (a ++ b) = a.
Proof.
  intros a b. unfold zlen. rewrite Nat2Z.id, app_length. replace (length a + length b - length b)%nat with (length a) by lia.
  rewrite firstn_app, Nat.sub_diag, firstn_all. cbn. apply app_nil_r.
Qed.

Lemma space_width : forall r, In r spaces -> (1 <= length (encodeRune r))%nat.
Proof. intros r H. unfold spaces in H. simpl in H. repeat (destruct H as [<-|H]; [cbn; lia|]). destruct H. Qed.

Lemma trimLeft_spec : forall n s, (length s <= n)%nat -> exists a, blankText a /\ s = a ++ trimLeft n s /\ forall r u, In r spaces -> trimLeft n s <> encodeRune r ++ u.
Proof.
  induction n as [|n IH]; intros s L; cbn [trimLeft].
  - destruct s; [|cbn in L; lia]. exists []. split; [exists []; auto|]. split; auto. intros r u I E. pose proof (space_width r I). destruct (encodeRune r); [cbn in *; lia|discriminate].
  - destruct (decodeRune s) as [r w] eqn:E. destruct (isSpaceRune r) eqn:S.
    + apply space_iff in S. destruct (decode_space _ _ _ E S) as (u & -> & ->). rewrite skip_zlen. pose proof (space_width r S).
      rewrite app_length in L. destruct (IH u ltac:(lia)) as (a & B & EU & N). exists (encodeRune r ++ a). split; [now apply blankText_cons|].
      split; [rewrite <- app_assoc; now rewrite <- EU|exact N].
    + exists []. split; [exists []; auto|]. split; auto. intros r' u I ->. rewrite (space_decode r' u I) in E. inversion E; subst. apply space_iff in I. congruence.
Qed.

Lemma trimRight_spec : forall n s, (length s <= n)%nat -> exists b, blankText b /\ s = trimRight n s ++ b /\ forall r u, In r spaces -> trimRight n s <> u ++ encodeRune r.
Proof.
  induction n as [|n IH]; intros s L; cbn [trimRight].
  - destruct s; [|cbn in L; lia]. exists []. split; [exists []; auto|]. split; auto. intros r u I E. pose proof (space_width r I). apply (f_equal (@length Z)) in E. rewrite app_length in E. cbn in E. lia.
  - destruct (decodeLastRune s) as [r w] eqn:E. destruct (isSpaceRune r) eqn:S.
    + apply space_iff in S. destruct (last_space _ _ _ E S) as (u & -> & ->). rewrite first_zlen. pose proof (space_width r S).
      rewrite app_length in L. destruct (IH u ltac:(lia)) as (b & B & EU & N). exists (b ++ encodeRune r). split; [now apply blankText_snoc|].
      split; [rewrite app_assoc; now rewrite <- EU|exact N].
    + exists []. split; [exists []; auto|]. rewrite app_nil_r. split; auto. intros r' u I ->. rewrite (space_decode_last r' u I) in E. inversion E; subst. apply space_iff in I. congruence.
Qed.

Lemma trimLeft_strip : forall rs t n, Forall (fun r => In r spaces) rs -> (length (flat_map encodeRune rs ++ t) <= n)%nat ->
  (forall r u, In r spaces -> t <> encodeRune r ++ u) -> trimLeft n (flat_map encodeRune rs ++ t) = t.
Proof.
  induction rs as [|r rs IH]; intros t n F L N; cbn [flat_map app] in *.
  - destruct n; auto. cbn [trimLeft]. destruct (decodeRune t) as [r w] eqn:E. destruct (isSpaceRune r) eqn:S; auto.
    apply space_iff in S. destruct (decode_space _ _ _ E S) as (u & -> & _). exfalso. eapply N; eauto.
  - inversion F; subst. pose proof (space_width r H1). rewrite <- app_assoc in *. destruct n; [rewrite app_length in L; lia|]. cbn [trimLeft].
    rewrite (space_decode r _ H1). replace (isSpaceRune r) with true by (symmetry; now apply space_iff). rewrite skip_zlen. apply IH; auto.
    rewrite app_length in L. lia.
Qed.

Lemma trimRight_strip : forall rs t n, Forall (fun r => In r spaces) rs -> (length (t ++ flat_map encodeRune rs) <= n)%nat ->
  (forall r u, In r spaces -> t <> u ++ encodeRune r) -> trimRight n (t ++ flat_map encodeRune rs) = t.
Proof.
  induction rs as [|r rs IH] using rev_ind; intros t n F L N.
  - cbn [flat_map] in *. rewrite app_nil_r. destruct n; auto. cbn [trimRight]. destruct (decodeLastRune t) as [r w] eqn:E. destruct (isSpaceRune r) eqn:S; auto.
    apply space_iff in S. destruct (last_space _ _ _ E S) as (u & -> & _). exfalso. eapply N; eauto.
  - rewrite flat_map_app in *. cbn [flat_map] in *. rewrite app_nil_r in *. apply Forall_app in F as [F1 F2]. inversion F2; subst. pose proof (space_width r H1).
    rewrite app_assoc in *. destruct n; [rewrite app_length in L; lia|]. cbn [trimRight].
    rewrite (space_decode_last r _ H1). replace (isSpaceRune r) with true by (symmetry; now apply space_iff). rewrite first_zlen. apply IH; auto.
    rewrite app_length in L. lia.
Qed.

(** White space cannot start in the middle of a code point. *)
Lemma no_straddle : forall r t b u, In r spaces -> t <> [] -> blankText b -> t ++ b = encodeRune r ++ u -> exists u', t = encodeRune r ++ u'.
Proof.
  intros r t b u I NE (rs & F & ->) E.
  assert (HB : forall x y, flat_map encodeRune rs = x :: y -> ~ 128 <= x <= 191).
  { destruct rs as [|r' rs]; intros x y EQ; [discriminate|]. inversion F; subst. cbn [flat_map] in EQ. clear - H1 EQ.
    unfold spaces in H1. simpl in H1. repeat (destruct H1 as [<-|H1]; [cbn in EQ; inversion EQ; lia|]). destruct H1. }
  assert (HE : forall x y z, encodeRune r = x :: y ++ z -> Forall (fun c => 128 <= c <= 191) (y ++ z)).
  { intros x y z EQ. change (y ++ z) with (tl (x :: y ++ z)). rewrite <- EQ. clear - I. unfold spaces in I. simpl in I.
    repeat (destruct I as [<-|I]; [cbn; repeat constructor; lia|]). destruct I. }
  apply app_eq_app in E as (l & [[E1 E2]|[E1 E2]]); [eauto|].
  destruct t as [|x t]; [congruence|]. specialize (HE x t l E1). destruct l as [|y l]; [rewrite app_nil_r in E1; exists []; now rewrite app_nil_r|].
  exfalso. apply Forall_app in HE as [_ HE]. inversion HE; subst. eapply HB; eauto.
Qed.

Theorem C70_trim : forall s t, trimSpace s = t <-> exists a b, blankText a /\ blankText b /\ s = a ++ t ++ b /\ bare t.
Proof.
  intros s t. unfold trimSpace. split.
  - intros <-. destruct (trimLeft_spec (length s) s (le_n _)) as (a & BA & EA & NA). set (s1 := trimLeft (length s) s) in *.
    destruct (trimRight_spec (length s1) s1 (le_n _)) as (b & BB & EB & NB). set (t := trimRight (length s1) s1) in *.
    exists a, b. split; auto. split; auto. split; [now rewrite <- EB|]. intros r u I. split; [|now apply NB].
    intros E. apply (NA r (u ++ b) I). rewrite EB, E. now rewrite <- app_assoc.
  - intros (a & b & (ra & FA & ->) & (rb & FB & ->) & -> & B). destruct t as [|x t].
    + cbn [app]. assert (E : trimLeft (length (flat_map encodeRune ra ++ flat_map encodeRune rb)) (flat_map encodeRune ra ++ flat_map encodeRune rb) = []).
      { rewrite <- flat_map_app. rewrite <- (app_nil_r (flat_map encodeRune (ra ++ rb))). apply trimLeft_strip; auto; [now apply Forall_app|].
        intros r u I EQ. pose proof (space_width r I). destruct (encodeRune r); [cbn in *; lia|discriminate]. }
      rewrite E. reflexivity.
    + rewrite trimLeft_strip; auto.
      * apply trimRight_strip; auto. intros r u I. now apply B.
      * intros r u I E. destruct (no_straddle r (x :: t) (flat_map encodeRune rb) u I) as [u' E']; [discriminate|exists rb; auto|exact E|]. destruct (B r u' I). congruence.
Qed.

Example C70_trim_ex : trimSpace ([9; 194; 160] ++ str ":pv x" ++ [226; 128; 130; 13]) = str ":pv x".
Proof. reflexivity. Qed.

(** ** C71 *)

(** What a list of lines looks like when printed. *)
Definition printed (ls : list bytes) : bytes := flat_map (fun l => l ++ [10]) ls.

(** The line for one token: where it starts, its kind and its text. *)
Definition tokenShown (t : tokInfo) : bytes := posString (tPos t) ++ str ": " ++ tokenString (tTok t) ++ str " -> " ++ tLit t.

(** The lines shown for the arguments of [:tree]. *)
Inductive Trees (fmtF : Z -> bytes) (e : environment) : list bytes -> bytes -> Prop :=
| Tr_end : Trees fmtF e [] []
| Tr_unbound : forall a r o, (forall v, boundTo e a v -> v = NNil) -> Trees fmtF e r o -> Trees fmtF e (a :: r) o
| Tr_bound : forall a v t r o, boundTo e a v -> v <> NNil -> format fmtF v = Ok t -> Trees fmtF e r o ->
    Trees fmtF e (a :: r) (a ++ str ": " ++ t ++ [10] ++ o).

(** The lines shown for the rules of a line when verbose. *)
Definition ruleShown (n : node) : list bytes :=
  match n with NRule _ i v _ => [iName i ++ str " ; " ++ typeName v] | _ => [] end.

(** [Turn X M lex s line o s']: in session [s] a line makes the REPL print [o] and go on
    with [s'], or end. *)
Inductive Turn (X : Ext) (M : MainExt) (lex : bool) (s : session) (line : bytes) : bytes -> option session -> Prop :=
| Tn_help : forall u, trimSpace line = str ":help" ++ u ->
    Turn X M lex s line (printed [str ":help - Prints this help message"; str ":tree - Prints the syntax tree for a value in scope"; [];
                                  str ":pv   - Toggle printing the type after every execution"; []; str ":exit - Exits the REPL"]) (Some s)
| Tn_verbose : forall u, trimSpace line = str ":pv" ++ u -> Turn X M lex s line [] (Some (mkSession (sEnv s) (negb (sVerbose s))))
| Tn_exit : forall u, trimSpace line = str ":exit" ++ u -> Turn X M lex s line (printed [str "exiting..."]) None
| Tn_tree : forall u args o, trimSpace line = str ":tree" ++ u ++ flat_map (fun a => 32 :: a) args -> ~ In 32 u ->
    Forall (fun a => ~ In 32 a) args -> Trees (mFmtF M) (sEnv s) args o -> Turn X M lex s line o (Some s)
| Tn_cddl : forall o1 o2 o3 root ds p, ~ command (trimSpace line) ->
    (if lex then exists ts, TokensOf X line 0 ts /\ o1 = printed (map tokenShown ts) else o1 = []) ->
    parseSource X (parseFuel line) line (sEnv s) = Ok ((root, ds), p) ->
    match ds with None => o2 = [] | Some l => o2 = printed (map (diagString (cFmtV (mCli M)) (cQuote (mCli M))) l ++ [[]]) end ->
    (if sVerbose s then exists rules, root = Some (NCDDL zeroPos rules) /\ o3 = printed (flat_map ruleShown rules) else o3 = []) ->
    Turn X M lex s line (o1 ++ o2 ++ o3) (Some (mkSession (env p) (sVerbose s))).

Lemma scanTrace_iff : forall X n l ts, scanTrace X n l = (ts, Ok tt) <-> scanLoop X n l = Ok ts.
Proof.
  intros X. induction n as [|n IH]; intros l ts; cbn [scanTrace scanLoop]; [split; discriminate|].
  destruct (scan X l) as [[t l']| | |]; cbn [rbind]; try (split; discriminate). destruct (teq (tTok t) EOF).
  - split; intros H; inversion H; reflexivity.
  - destruct (scanTrace X n l') as [ts' r] eqn:E. split; intros H.
    + inversion H; subst. apply IH in E. now rewrite E.
    + destruct (scanLoop X n l') eqn:L; try discriminate. inversion H; subst. apply IH in L. rewrite L in E. inversion E; subst. reflexivity.
Qed.

Lemma tokenText_iff : forall X s o, decodable s -> (tokenText X s = (o, Ok tt) <-> exists ts, TokensOf X s 0 ts /\ o = printed (map tokenShown ts)).
Proof.
  intros X s o D. assert (EP : forall ts, flat_map tokenLine ts = printed (map tokenShown ts)).
  { unfold printed. induction ts as [|t ts IH]; [reflexivity|]. cbn [flat_map map]. rewrite IH. unfold tokenLine, tokenShown. now rewrite <- !app_assoc. }
  unfold tokenText. destruct (scanTrace X (S (length s)) (newLexer s)) as [ts r] eqn:E. split.
  - intros H. inversion H; subst. exists ts. split; auto. apply C66_tokens; auto. apply scanTrace_iff in E. exact E.
  - intros (ts' & T & ->). apply C66_tokens in T; auto. apply scanTrace_iff in T. rewrite T in E. inversion E; subst. now rewrite EP.
Qed.

Lemma treeText_iff : forall fmtF e args o, treeText fmtF e args = (o, Ok tt) <-> Trees fmtF e args o.
Proof.
  intros fmtF e. induction args as [|a args IH]; intros o; cbn [treeText].
  - split; intros H; inversion H; subst; constructor.
  - unfold get. destruct (assoc a e) as [v|] eqn:EA.
    + assert (EN : v = NNil \/ v <> NNil) by (destruct v; auto; right; discriminate). destruct EN as [->|EN].
      * rewrite IH. split; intros H.
        -- apply Tr_unbound; auto. unfold boundTo. congruence.
        -- inversion H; subst; auto. unfold boundTo in *. congruence.
      * assert (EV : (let '(o1, x) := treeText fmtF e args in
                      match format fmtF v with Ok t => (a ++ str ": " ++ ln t ++ o1, x) | Panic => (a ++ str ": ", Panic) | Hang => (a ++ str ": ", Hang) | NoFuel => (a ++ str ": ", NoFuel) end) = (o, Ok tt)
                     <-> Trees fmtF e (a :: args) o).
        { destruct (treeText fmtF e args) as [o1 x] eqn:ET. split; intros H.
          - destruct (format fmtF v) as [t| | |] eqn:EF; inversion H; subst. unfold ln. rewrite <- !app_assoc. eapply Tr_bound; eauto. now apply IH.
          - inversion H as [|a' r' o' HU HT|a' v' t r' o' HB NN HF HT]; subst.
            + specialize (HU v EA). congruence.
            + unfold boundTo in HB. assert (v' = v) by congruence. subst v'. rewrite HF. apply IH in HT. inversion HT; subst. unfold ln. now rewrite <- !app_assoc. }
        rewrite <- EV. destruct (treeText fmtF e args) as [o1 x]. destruct v; try congruence; destruct (format fmtF _); reflexivity.
    + rewrite IH. split; intros H.
      * apply Tr_unbound; auto. unfold boundTo. congruence.
      * inversion H; subst; auto. unfold boundTo in *. congruence.
Qed.

Lemma split_args : forall u args, ~ In 32 u -> Forall (fun a => ~ In 32 a) args -> split 32 (u ++ flat_map (fun a => 32 :: a) args) = u :: args.
Proof.
  intros u args. revert u. induction args as [|a args IH]; intros u N F; cbn [flat_map].
  - rewrite app_nil_r. now apply split_none.
  - inversion F; subst. change ((32 :: a) ++ flat_map (fun a0 => 32 :: a0) args) with (32 :: (a ++ flat_map (fun a0 => 32 :: a0) args)).
    rewrite split_cons by auto. now rewrite IH.
Qed.

Lemma split_join : forall s, exists u args, split 32 s = u :: args /\ s = u ++ flat_map (fun a => 32 :: a) args /\ ~ In 32 u /\ Forall (fun a => ~ In 32 a) args.
Proof.
  induction s as [|x s (u & args & E & ES & N & F)]; [exists [], []; repeat split; auto|]. cbn [split]. destruct (x =? 32) eqn:EX.
  - apply Z.eqb_eq in EX. subst x. rewrite E. exists [], (u :: args). split; auto. split; [now rewrite ES at 1|]. split; [intros []|]. constructor; auto.
  - rewrite E. exists (x :: u), args. split; auto. split; [now rewrite ES at 1|]. split; auto. intros [K|K]; [lia|auto].
Qed.

(** The lines that print nothing but an answer. *)
Lemma prefix_other : forall s c c' u, s = c' ++ u -> In c [str ":help"; str ":pv"; str ":exit"; str ":tree"] -> In c' [str ":help"; str ":pv"; str ":exit"; str ":tree"] ->
  c <> c' -> hasPrefix s c = false.
Proof.
  intros s c c' u -> H H' N. simpl in H, H'.
  destruct H as [<-|[<-|[<-|[<-|[]]]]]; destruct H' as [<-|[<-|[<-|[<-|[]]]]]; try congruence; reflexivity.
Qed.

Lemma prefix_same : forall s c u, s = c ++ u -> hasPrefix s c = true.
Proof. intros s c u ->. apply hasPrefix_iff. eauto. Qed.

Lemma errors_text : forall f q l, ln (errorListString f q l) = printed (map (diagString f q) l ++ [[]]).
Proof.
  intros f q l. unfold ln, errorListString, printed. rewrite flat_map_app. cbn. f_equal. induction l as [|d l IH]; [reflexivity|]. cbn [flat_map map]. now rewrite IH.
Qed.

Lemma parse_rootE : forall X s e root ds p fuel, parseSource X fuel s e = Ok ((root, ds), p) -> root = None \/ exists rules, root = Some (NCDDL zeroPos rules).
Proof.
  intros X s e root ds p fuel H. unfold parseSource, parseFile in H. destruct (newParser _ _ _) as [p0| | |]; try discriminate.
  cbn [rbind] in H. destruct (errors (lx p0)).
  - destruct (fileLoop _ _ _ _ _) as [[rules p1]| | |]; try discriminate. cbn [rbind] in H. inversion H; eauto.
  - inversion H; auto.
Qed.

Theorem C71_turn : forall X M lex s line o s', (lex = true -> decodable line) ->
  (Turn X M lex s line o s' <-> replTurn X M lex s line = (o, Ok s')).
Proof.
  intros X M lex s line o s' D. split.
  - intros H. unfold replTurn. inversion H as [u E|u E|u E|u args o' E NU FA HT|o1 o2 o3 root ds p NC H1 HP H2 H3]; subst.
    + rewrite (prefix_same _ _ _ E). reflexivity.
    + rewrite (prefix_other _ (str ":help") _ _ E), (prefix_same _ _ _ E) by (simpl; auto 6; discriminate). reflexivity.
    + rewrite (prefix_other _ (str ":help") _ _ E), (prefix_other _ (str ":pv") _ _ E), (prefix_same _ _ _ E) by (simpl; auto 6; discriminate). reflexivity.
    + rewrite (prefix_other _ (str ":help") _ _ E), (prefix_other _ (str ":pv") _ _ E), (prefix_other _ (str ":exit") _ _ E), (prefix_same _ _ _ E) by (simpl; auto 6; discriminate).
      rewrite E, app_assoc, split_args; auto.
      * cbn [tl]. apply treeText_iff in HT. rewrite HT. reflexivity.
      * intros K. apply in_app_or in K as [K|K]; auto. simpl in K. lia.
    + assert (K : forall c, In c [str ":help"; str ":pv"; str ":exit"; str ":tree"] -> hasPrefix (trimSpace line) c = false).
      { intros c Hc. destruct (hasPrefix (trimSpace line) c) eqn:E; auto. exfalso. apply NC. eapply hasPrefix_command; eauto. }
      rewrite !K by (simpl; auto).
      assert (E1 : (if lex then tokenText X line else ([], Ok tt)) = (o1, Ok tt)).
      { destruct lex; [apply tokenText_iff; auto|now subst]. }
      rewrite E1. cbn [rbind]. rewrite HP.
      assert (E3 : (if sVerbose s then typesText root else ([], Ok tt)) = (o3, Ok tt)).
      { destruct (sVerbose s); [|now subst]. destruct H3 as (rules & -> & ->). cbn [typesText]. f_equal. unfold printed.
        clear. induction rules as [|n rules IH]; [reflexivity|]. cbn [flat_map]. rewrite IH, flat_map_app. f_equal. destruct n; cbn; rewrite ?app_nil_r; reflexivity. }
      rewrite E3. cbn [rbind]. do 2 f_equal. destruct ds as [l|]; subst o2; auto. f_equal. apply errors_text.
  - intros H. unfold replTurn in H.  destruct (hasPrefix (trimSpace line) (str ":help")) eqn:E1.
    { inversion H; subst. apply hasPrefix_iff in E1 as [u E1]. eapply Tn_help; eauto. }
    destruct (hasPrefix (trimSpace line) (str ":pv")) eqn:E2.
    { inversion H; subst. apply hasPrefix_iff in E2 as [u E2]. eapply Tn_verbose; eauto. }
    destruct (hasPrefix (trimSpace line) (str ":exit")) eqn:E3.
    { inversion H; subst. apply hasPrefix_iff in E3 as [u E3]. eapply Tn_exit; eauto. }
    destruct (hasPrefix (trimSpace line) (str ":tree")) eqn:E4.
    { apply hasPrefix_iff in E4 as [u E4]. destruct (split_join u) as (u' & args & ES & EU & NU & FA).
      assert (ET : split 32 (trimSpace line) = (str ":tree" ++ u') :: args).
      { rewrite E4, EU, app_assoc. apply split_args; auto. intros K. apply in_app_or in K as [K|K]; auto. simpl in K. lia. }
      rewrite ET in H. cbn [tl] in H. destruct (treeText (mFmtF M) (sEnv s) args) as [o' r] eqn:EQ. destruct r as [[]| | |]; inversion H; subst.
      apply treeText_iff in EQ. eapply Tn_tree; eauto. }
    assert (NC : ~ command (trimSpace line)) by (apply not_command; auto).
    destruct (if lex then tokenText X line else ([], Ok tt)) as [o1 r1] eqn:EL. destruct r1 as [[]| | |]; cbn [rbind] in H; try (inversion H; fail).
    destruct (parseSource X (parseFuel line) line (sEnv s)) as [[[root ds] p]| | |] eqn:EP; try (inversion H; fail).
    destruct (if sVerbose s then typesText root else ([], Ok tt)) as [o3 r3] eqn:EV. destruct r3 as [[]| | |]; cbn [rbind] in H; try (inversion H; fail).
    inversion H; subst. eapply Tn_cddl; eauto.
    + destruct lex; [now apply tokenText_iff; auto|now inversion EL].
    + destruct ds as [l|]; auto. apply errors_text.
    + destruct (sVerbose s); [|now inversion EV]. destruct root as [root|]; [|discriminate]. destruct root; try discriminate. cbn [typesText] in EV. inversion EV; subst.
      destruct (parse_rootE _ _ _ _ _ _ _ EP) as [K|[rules' K]]; [discriminate|]. inversion K; subst. exists rules'. split; auto. unfold printed.
      clear. induction rules' as [|n rules IH]; [reflexivity|]. cbn [flat_map]. rewrite IH, flat_map_app. f_equal. destruct n; cbn; rewrite ?app_nil_r; reflexivity.
Qed.

(** [Session X M lex s lines o e]: with the lines [lines] to come the REPL prints [o], ends
    with [:exit] or because there is no further line. *)
Inductive Session (X : Ext) (M : MainExt) (lex : bool) : session -> list bytes -> bytes -> outcome -> Prop :=
| Ss_end : forall s, Session X M lex s [] (str ">>> ") (Failure EScan)
| Ss_exit : forall s line r o, Turn X M lex s line o None -> Session X M lex s (line :: r) (str ">>> " ++ o) Success
| Ss_line : forall s line r o s1 o1 e, Turn X M lex s line o (Some s1) -> Session X M lex s1 r o1 e ->
    Session X M lex s (line :: r) (str ">>> " ++ o ++ o1) e.

Theorem C71_session : forall X M lex lines s o e, (lex = true -> Forall decodable lines) ->
  (Session X M lex s lines o e <-> replLines X M lex s lines = (o, e) /\ (e = Success \/ e = Failure EScan)).
Proof.
  intros X M lex. induction lines as [|line lines IH]; intros s o e D; cbn [replLines].
  - split; [intros H; inversion H; subst; auto|intros [H _]; inversion H; constructor].
  - assert (D1 : lex = true -> decodable line) by (intros E; specialize (D E); now inversion D).
    assert (D2 : lex = true -> Forall decodable lines) by (intros E; specialize (D E); now inversion D).
    split.
    + intros H. inversion H as [|s0 line0 r o1 HT|s0 line0 r o1 s1 o2 e0 HT HS]; subst.
      * apply C71_turn in HT; auto. rewrite HT. auto.
      * apply C71_turn in HT; auto. rewrite HT. apply IH in HS as [HS HE]; auto. rewrite HS. auto.
    + intros [H HE]. destruct (replTurn X M lex s line) as [o1 t] eqn:ET. destruct t as [[s1|]| | |].
      * destruct (replLines X M lex s1 lines) as [o2 e2] eqn:ER. inversion H; subst. apply Ss_line with s1; [now apply C71_turn|]. apply IH; auto.
      * inversion H; subst. apply Ss_exit. now apply C71_turn.
      * inversion H; subst. cbn in HE. destruct HE; discriminate.
      * inversion H; subst. cbn in HE. destruct HE; discriminate.
      * inversion H; subst. cbn in HE. destruct HE; discriminate.
Qed.

(** A line that is accepted shows nothing, unless asked to. *)
Theorem C71_silent : forall X M s line root p, ~ command (trimSpace line) -> sVerbose s = false ->
  parseSource X (parseFuel line) line (sEnv s) = Ok ((root, None), p) ->
  replTurn X M false s line = ([], Ok (Some (mkSession (env p) false))).
Proof.
  intros X M s line root p NC V H. apply C71_turn; [discriminate|].
  change (@nil Z) with (@nil Z ++ [] ++ []). replace (mkSession (env p) false) with (mkSession (env p) (sVerbose s)) by now rewrite V.
  apply (Tn_cddl X M false s line [] [] [] root None p); auto. now rewrite V.
Qed.

(** The session of Repl.v. *)
Lemma printTrees_text : forall R e args, (_ <- printTrees R e args;; Ok tt) = snd (treeText (xFmtF R) e args).
Proof.
  intros R e. induction args as [|a args IH]; cbn [printTrees treeText]; [reflexivity|].
  assert (EV : forall v, (_ <- (t <- format (xFmtF R) v;; o <- printTrees R e args;; Ok (OTree a t :: o));; Ok tt) =
    snd (match format (xFmtF R) v with Ok t => let '(o, x) := treeText (xFmtF R) e args in (a ++ str ": " ++ ln t ++ o, x)
         | Panic => (a ++ str ": ", Panic) | Hang => (a ++ str ": ", Hang) | NoFuel => (a ++ str ": ", NoFuel) end)).
  { intros v. destruct (format (xFmtF R) v); cbn [rbind]; auto. rewrite <- (f_equal (fun x => x) IH) || idtac.
    destruct (treeText (xFmtF R) e args) as [o x]. cbn [snd] in *. destruct (printTrees R e args); cbn [rbind] in *; auto. }
  destruct (get e a); auto.
Qed.

Lemma scanTrace_end : forall X n l, snd (scanTrace X n l) = (_ <- scanLoop X n l;; Ok tt).
Proof.
  intros X. induction n as [|n IH]; intros l; cbn [scanTrace scanLoop]; [reflexivity|].
  destruct (scan X l) as [[t l']| | |]; cbn [rbind]; auto. destruct (teq (tTok t) EOF); auto.
  specialize (IH l'). destruct (scanTrace X n l') as [ts r]. cbn [snd] in *. rewrite IH. now destruct (scanLoop X n l').
Qed.

Lemma turn_text : forall X M lex s line,
  snd (replTurn X M lex s line) = (r <- turn X (mkReplExt trimSpace (mFmtF M)) lex s line;; Ok (snd r)).
Proof.
  intros X M lex s line. unfold replTurn, turn. cbn [xTrimSpace].
  destruct (hasPrefix (trimSpace line) (str ":help")); [reflexivity|]. destruct (hasPrefix (trimSpace line) (str ":pv")); [reflexivity|].
  destruct (hasPrefix (trimSpace line) (str ":exit")); [reflexivity|]. destruct (hasPrefix (trimSpace line) (str ":tree")).
  { pose proof (printTrees_text (mkReplExt trimSpace (mFmtF M)) (sEnv s) (tl (split 32 (trimSpace line)))) as K. cbn [xFmtF] in K.
    destruct (treeText (mFmtF M) (sEnv s) (tl (split 32 (trimSpace line)))) as [o r]. cbn [snd] in *. rewrite <- K. now destruct (printTrees _ _ _). }
  assert (K : snd (if lex then tokenText X line else ([], Ok tt)) = (_ <- (if lex then printTokens X line else Ok []);; Ok tt)).
  { destruct lex; [|reflexivity]. unfold tokenText, printTokens, scanAll. pose proof (scanTrace_end X (S (length line)) (newLexer line)) as K.
    destruct (scanTrace X (S (length line)) (newLexer line)) as [ts r]. cbn [snd] in *. rewrite K. now destruct (scanLoop _ _ _). }
  destruct (if lex then tokenText X line else ([], Ok tt)) as [o1 r1]. cbn [snd] in K. rewrite K. clear K.
  destruct (if lex then printTokens X line else Ok []); cbn [rbind]; auto.
  destruct (parseSource X (parseFuel line) line (sEnv s)) as [[[root ds] p]| | |]; cbn [rbind]; auto.
  assert (K : snd (if sVerbose s then typesText root else ([], Ok tt)) = (_ <- (if sVerbose s then printcddlShort root else Ok []);; Ok tt)).
  { destruct (sVerbose s); [|reflexivity]. destruct root as [root|]; [|reflexivity]. now destruct root. }
  destruct (if sVerbose s then typesText root else ([], Ok tt)) as [o3 r3]. cbn [snd] in *. rewrite K. clear K.
  now destruct (if sVerbose s then printcddlShort root else Ok []).
Qed.

(** The REPL ends as the session of C32, C49 and C50 does. *)
Theorem C71_same_session : forall X M lex lines s,
  snd (replLines X M lex s lines) =
  match replLoop X (mkReplExt trimSpace (mFmtF M)) lex s lines with
  | Ok (_, Exited, _) => Success
  | Ok (_, CouldNotScan, _) => Failure EScan
  | r => ended r
  end.
Proof.
  intros X M lex. induction lines as [|line lines IH]; intros s; cbn [replLines replLoop]; [reflexivity|].
  pose proof (turn_text X M lex s line) as K. destruct (replTurn X M lex s line) as [o t]. cbn [snd] in K. subst t.
  destruct (turn X (mkReplExt trimSpace (mFmtF M)) lex s line) as [[o1 [s1|]]| | |]; cbn [rbind snd]; auto.
  specialize (IH s1). destruct (replLines X M lex s1 lines) as [o2 e]. cbn [snd] in *. rewrite IH.
  destruct (replLoop X (mkReplExt trimSpace (mFmtF M)) lex s1 lines) as [[[o3 en] s3]| | |]; cbn [rbind]; auto.
Qed.

(** What each item of the sessions of C32, C49 and C50 looks like. *)
Definition shown (M : MainExt) (o : out) : bytes :=
  match o with
  | OHelp => printed [str ":help - Prints this help message"; str ":tree - Prints the syntax tree for a value in scope"; [];
                      str ":pv   - Toggle printing the type after every execution"; []; str ":exit - Exits the REPL"]
  | OExit => printed [str "exiting..."]
  | OTree a t => printed [a ++ str ": " ++ t]
  | OToken t => tokenLine t
  | OErrors l => printed [errorListString (cFmtV (mCli M)) (cQuote (mCli M)) l]
  | OType n t => printed [n ++ str " ; " ++ t]
  end.

Lemma printTrees_shown : forall M e args o, printTrees (mkReplExt trimSpace (mFmtF M)) e args = Ok o ->
  fst (treeText (mFmtF M) e args) = flat_map (shown M) o.
Proof.
  intros M e. induction args as [|a args IH]; intros o H; cbn [printTrees treeText] in *; [now inversion H|].
  destruct (get e a) eqn:G; cbn [xFmtF] in *;
    try (match type of H with rbind (format ?f ?v) _ = _ => destruct (format f v) as [?tx| | |]; cbn [rbind] in H; try discriminate end;
         destruct (printTrees _ e args) as [oz| | |]; cbn [rbind] in H; try discriminate; inversion H; subst; specialize (IH oz eq_refl);
         destruct (treeText (mFmtF M) e args) as [oy xx]; cbn [fst] in *; subst oy; cbn [flat_map shown]; unfold printed, ln; cbn [flat_map];
         rewrite <- !app_assoc; reflexivity).
  now apply IH.
Qed.

Lemma scanTrace_toks : forall X n l ts, scanLoop X n l = Ok ts -> fst (scanTrace X n l) = ts.
Proof.
  intros X. induction n as [|n IH]; intros l ts H; cbn [scanTrace scanLoop] in *; [discriminate|].
  destruct (scan X l) as [[t l']| | |]; cbn [rbind] in H; try discriminate. destruct (teq (tTok t) EOF); [now inversion H|].
  destruct (scanLoop X n l') as [ts'| | |] eqn:E; cbn [rbind] in H; try discriminate. specialize (IH _ _ E).
  destruct (scanTrace X n l') as [ts2 r]. cbn [fst] in *. subst. now inversion H.
Qed.

Lemma flat_map_map : forall A B C (f : A -> B) (g : B -> list C) l, flat_map g (map f l) = flat_map (fun x => g (f x)) l.
Proof. induction l as [|x l IH]; simpl; [reflexivity|]. now rewrite IH. Qed.

Lemma turn_shown : forall X M lex s line o s', turn X (mkReplExt trimSpace (mFmtF M)) lex s line = Ok (o, s') ->
  fst (replTurn X M lex s line) = flat_map (shown M) o.
Proof.
  intros X M lex s line o s' H. unfold replTurn, turn in *. cbn [xTrimSpace] in *.
  destruct (hasPrefix (trimSpace line) (str ":help")); [now inversion H|]. destruct (hasPrefix (trimSpace line) (str ":pv")); [now inversion H|].
  destruct (hasPrefix (trimSpace line) (str ":exit")); [now inversion H|]. destruct (hasPrefix (trimSpace line) (str ":tree")).
  { destruct (printTrees _ _ _) as [o1| | |] eqn:E; cbn [rbind] in H; try discriminate. inversion H; subst. apply printTrees_shown in E.
    destruct (treeText _ _ _) as [o2 r]. exact E. }
  assert (K : forall o1, (if lex then printTokens X line else Ok []) = Ok o1 -> fst (if lex then tokenText X line else ([], Ok tt)) = flat_map (shown M) o1).
  { intros o1 K. destruct lex; [|now inversion K]. unfold tokenText, printTokens, scanAll in *.
    destruct (scanLoop X (S (length line)) (newLexer line)) as [ts| | |] eqn:E; cbn [rbind] in K; try discriminate. inversion K; subst.
    apply scanTrace_toks in E. destruct (scanTrace X (S (length line)) (newLexer line)) as [ts2 r]. cbn [fst] in *. subst.
    rewrite flat_map_map. reflexivity. }
  pose proof (turn_text X M lex s line) as _.
  assert (K1 : snd (if lex then tokenText X line else ([], Ok tt)) = (_ <- (if lex then printTokens X line else Ok []);; Ok tt)).
  { destruct lex; [|reflexivity]. unfold tokenText, printTokens, scanAll. pose proof (scanTrace_end X (S (length line)) (newLexer line)) as K2.
    destruct (scanTrace X (S (length line)) (newLexer line)) as [ts r]. cbn [snd] in *. rewrite K2. now destruct (scanLoop _ _ _). }
  destruct (if lex then printTokens X line else Ok []) as [toks| | |]; cbn [rbind] in H; try discriminate.
  specialize (K _ eq_refl). destruct (if lex then tokenText X line else ([], Ok tt)) as [o1 r1]. cbn [fst snd] in *. subst o1 r1. cbn [rbind].
  destruct (parseSource X (parseFuel line) line (sEnv s)) as [[[root ds] p]| | |]; cbn [rbind] in *; try discriminate.
  assert (K : forall o3, (if sVerbose s then printcddlShort root else Ok []) = Ok o3 -> fst (if sVerbose s then typesText root else ([], Ok tt)) = flat_map (shown M) o3).
  { intros o3 K. destruct (sVerbose s); [|now inversion K]. destruct root as [root|]; [|discriminate]. destruct root; try discriminate.
    inversion K; subst. cbn [typesText fst]. clear.
    match goal with |- flat_map _ ?r = _ => induction r as [|n rs IH]; [reflexivity|] end. cbn [flat_map]. rewrite IH, flat_map_app. f_equal.
    destruct n; try reflexivity. cbn [flat_map shown]. unfold printed, ln. cbn [flat_map]. now rewrite !app_nil_r. }
  destruct (if sVerbose s then printcddlShort root else Ok []) as [types| | |]; cbn [rbind] in H; try discriminate. specialize (K _ eq_refl).
  destruct (if sVerbose s then typesText root else ([], Ok tt)) as [o3 r3]. cbn [fst] in *. subst o3. inversion H; subst.
  rewrite !flat_map_app. f_equal. f_equal. destruct ds as [l|]; [|reflexivity]. cbn [flat_map shown]. unfold printed. cbn [flat_map]. now rewrite !app_nil_r.
Qed.

(** What a session shows is, turn by turn, what the REPL prints after its prompt. *)
Theorem C71_same_output : forall X M lex lines s o en s',
  replLoop X (mkReplExt trimSpace (mFmtF M)) lex s lines = Ok (o, en, s') ->
  exists turns, o = concat turns /\ (en = Exited -> (length turns <= length lines)%nat) /\ (en = CouldNotScan -> length turns = length lines) /\
    fst (replLines X M lex s lines) =
    flat_map (fun t => str ">>> " ++ flat_map (shown M) t) turns ++ match en with Exited => [] | CouldNotScan => str ">>> " end.
Proof.
  intros X M lex. induction lines as [|line lines IH]; intros s o en s' H; cbn [replLoop replLines] in *.
  { inversion H; subst. exists []. repeat split; auto. }
  pose proof (turn_text X M lex s line) as K. destruct (turn _ _ _ s line) as [[o1 s1]| | |] eqn:E; cbn [rbind] in H; try discriminate.
  pose proof (turn_shown _ _ _ _ _ _ _ E) as KO. destruct (replTurn X M lex s line) as [o2 t]. cbn [fst snd rbind] in *. subst o2 t.
  destruct s1 as [s1|].
  - destruct (replLoop _ _ _ s1 lines) as [[[o3 en3] s3]| | |] eqn:E3; cbn [rbind] in H; try discriminate. inversion H; subst.
    destruct (IH _ _ _ _ E3) as (ts & -> & H1 & H2 & H3). exists (o1 :: ts). split; [reflexivity|]. split; [intros; simpl; specialize (H1 H0); lia|].
    split; [intros; simpl; now rewrite H2|]. destruct (replLines X M lex s1 lines) as [o4 e]. cbn [fst] in *. rewrite H3. cbn [flat_map].
    unfold prompt. now rewrite <- !app_assoc.
  - inversion H; subst. exists [o]. cbn [concat length flat_map]. rewrite !app_nil_r. split; [reflexivity|]. split; [simpl; lia|]. split; [discriminate|].
    reflexivity.
Qed.

(** Names that [:tree] can show contain no format verb: they are identifiers. *)
Theorem C71_no_verbs : forall X R lex lines b o s' w v, Forall decodable lines ->
  replLoop X R lex (mkSession newEnvironment b) lines = Ok (o, CouldNotScan, s') -> boundTo (sEnv s') w v ->
  w <> [] /\ Forall (fun c => 65 <= c <= 90 \/ 97 <= c <= 122 \/ 48 <= c <= 57 \/ In c [36; 45; 46; 64; 95]) w.
Proof.
  intros X R lex lines b o s' w v D H HV. destruct (C32_session _ _ _ _ _ _ _ D H) as (ds & HF & HB). simpl in HB.
  apply HB in HV. assert (HI : In (w, v) (concat ds)).
  { clear - HV. induction HV; [left; auto|right; auto]. }
  apply in_concat in HI as (d & Hd & HI). clear - HF Hd HI D. induction HF as [|line d' lines ds HL HF IH]; [contradiction|].
  inversion D; subst. destruct Hd as [-> |Hd]; [|apply IH; auto].
  destruct HL as [[_ ->]|[_ HL]]; [contradiction|]. destruct HL as [ts f e rules dg p d HS HP HD|]; [|contradiction].
  assert (HA : exists i, iName i = w /\ assignedWith ts i ASSIGN).
  { clear - HD HI. induction HD as [|n rules l HN HD IH|i rules l HD IH|i x c rules l HX HA HD IH|i x c rules l HX HA HD IH]; auto; [contradiction|].
    destruct HI as [HI|HI]; auto. inversion HI; subst. eauto. }
  destruct HA as (i & <- & pre & a & post & -> & _).
  assert (DL : decodable line) by assumption. pose proof (str_written X line _ _ _ HS 0 (newLexer_st line DL)) as HW. rewrite Forall_forall in HW.
  destruct (HW (mkTok IDENT (iPos i) (iName i)) ltac:(apply in_elt)) as (k & text & (rest & _ & HX) & _). cbn [tTok tLit] in HX.
  clear - HX. inversion HX; subst; try (split; [discriminate|]).
  - constructor.
    + match goal with K : identStart _ |- _ => unfold identStart in K end. simpl. lia.
    + eapply Forall_impl; [|eassumption]. unfold identChar, identStart. simpl. intros c0 K. lia.
  - exfalso. match goal with K : In (_, IDENT) punctTable |- _ => unfold punctTable in K; simpl in K; tab K; discriminate K end.
  - constructor; [simpl; lia|]. eapply Forall_impl; [|eassumption]. unfold letter. simpl. intros c0 K. lia.
Qed.

Definition sampleMain : MainExt := mkMain sampleCli (fun _ => str "0.0") (str "1.0") (str "abc") (str "today") (str "linux") (str "amd64") (fun _ => str "failed").

(** A session with a definition, a repeated one, a reference and commands. *)
Example C71_ex : replCmd X0 sampleMain false (printed [str "a = 1"; str " :pv"; str "a = int"; str "b = a"; str ":tree b c a"; str ":exit now"; str "c = 1"]) =
  (printed [str "Welcome to the cddlc quick repl.";
            str ">>> >>> >>> parser error: existing declaration for identifier a at line 1, column 5"; [];
            str "a ; *ast.IntegerType";
            str ">>> b ; *ast.Identifier";
            str ">>> b: Ident ( Name: 'a' ) { Column: 5, Line: 1 }";
            str "a: IntegerLiteral (Literal: '1') { Column: 5, Line: 1 }";
            str ">>> exiting..."], Success).
Proof. vm_compute. reflexivity. Qed.

Example C71_lex_ex : replCmd X0 sampleMain true (str "a = 1") =
  (printed [str "Welcome to the cddlc quick repl."; str ">>> 1:1: IDENT -> a"; str "1:3: = -> ="; str "1:5: int -> 1"; str "1:6: EOF -> "] ++ str ">>> ", Failure EScan).
Proof. vm_compute. reflexivity. Qed.

(** ** C72 *)

(** The names of the commands. *)
Definition commandNames : list (bytes * cmd) :=
  [(str "init", CInit); (str "generate", CGenerate); (str "gen", CGenerate); (str "lex", CLex); (str "parse", CParse); (str "qrepl", CRepl); (str "doctor", CDoctor)].

Theorem C72_names : forall n c, commandNamed n = Some c <-> In (n, c) commandNames.
Proof.
  intros n c. unfold commandNamed, commandNames. split.
  - intros H.
    repeat match type of H with
    | (if beq n ?a || beq n ?b then _ else _) = _ => destruct (beq n a) eqn:?E; [|destruct (beq n b) eqn:?E]; cbn [orb] in H
    | (if beq n ?a then _ else _) = _ => destruct (beq n a) eqn:?E
    end;
    repeat match goal with E : beq _ _ = true |- _ => apply beq_iff in E end; subst; inversion H; subst; simpl; auto 10.
  - intros H. simpl in H. repeat (destruct H as [H|H]; [inversion H; subst; reflexivity|]). destruct H.
Qed.

(** init: status 0 exactly if it has made the configuration. *)
Theorem C72_init : forall X M O cwd wdOk f stdin args pr, main X M O cwd wdOk f stdin (str "init" :: args) = Some pr ->
  prOut pr = [] /\
  ((exitStatus (prEnd pr) = Some 0 /\ look f (configPath cwd) = None /\ look (prFs pr) (configPath cwd) = Some (EFile configText)) \/
   (exitStatus (prEnd pr) = Some 1 /\ (look (prFs pr) (configPath cwd) = look f (configPath cwd) \/
      (look f (configPath cwd) = None /\ look (prFs pr) (configPath cwd) = Some (EFile []))))).
Proof.
  intros X M O cwd wdOk f stdin args pr H. cbn [main] in H. change (commandNamed (str "init")) with (Some CInit) in H. cbn [runCommand] in H.
  destruct (initCmd O (if wdOk then Some cwd else None) f) as [f' e] eqn:E. inversion H; subst; clear H. cbn [prOut prEnd prFs finish]. split; auto.
  destruct wdOk; [|inversion E; subst; right; cbn; auto].
  destruct e as [|e0| | |].
  - left. destruct (C43_creates _ _ _ _ E) as (L & L' & _). cbn. auto.
  - right. cbn. split; auto. unfold initCmd, statP in E. fold (configPath cwd) in E. destruct (_ || _); [inversion E; auto|].
    destruct (look f (configPath cwd)) as [[|]|] eqn:L; try (inversion E; subst; auto; fail).
    destruct (openWrite O false f (configPath cwd)) as [f1|] eqn:P; [|inversion E; subst; auto].
    destruct (oWrite O (configPath cwd)); inversion E; subst. right. split; auto. unfold openWrite in P. destruct (_ || _); [discriminate|]. rewrite L in P.
    destruct (look f (removelast (configPath cwd))) as [[|]|]; inversion P; subst. apply look_same. apply configPath_root.
  - exfalso. unfold initCmd in E. destruct (statP _ _ _ _); try discriminate. destruct (openWrite _ _ _ _); try discriminate. destruct (oWrite _ _); discriminate.
  - exfalso. unfold initCmd in E. destruct (statP _ _ _ _); try discriminate. destruct (openWrite _ _ _ _); try discriminate. destruct (oWrite _ _); discriminate.
  - exfalso. unfold initCmd in E. destruct (statP _ _ _ _); try discriminate. destruct (openWrite _ _ _ _); try discriminate. destruct (oWrite _ _); discriminate.
Qed.

Lemma source_kept : forall cwd bs f f' dir stem, (forall q, Effect cwd bs f f' q) -> look f (dir ++ [stem ++ str ".cddl"]) <> None ->
  look f' (dir ++ [stem ++ str ".cddl"]) = look f (dir ++ [stem ++ str ".cddl"]).
Proof.
  intros cwd bs f f' dir stem H N. destruct (H (dir ++ [stem ++ str ".cddl"])) as [E|b p r B P E K D|b p src stem2 c B P S E K D F]; try congruence.
  exfalso. apply app_inj_tail in E as [_ E]. apply (f_equal (@rev Z)) in E. rewrite !rev_app_distr in E. discriminate.
Qed.

Lemma file_kept : forall cwd bs f f' q c, (forall q, Effect cwd bs f f' q) -> look f q = Some (EFile c) -> exists c', look f' q = Some (EFile c').
Proof. intros cwd bs f f' q c H L. destruct (H q); try congruence; eauto. rewrite L in *. eauto. Qed.

Lemma builds_sources : forall X C O cwd bs l f f' o, incl l bs -> generateBuilds X C O cwd l f = (f', o, Success) ->
  Forall (fun b => exists bd dir, b = Some bd /\ pathOf cwd (bSource bd) = Some dir /\
    forall stem, look f (dir ++ [stem ++ str ".cddl"]) <> None ->
      exists out s text text', look f (dir ++ [stem ++ str ".cddl"]) = Some (EFile s) /\ Compiled X C (bPackage bd) s text /\
        pathOf cwd (bOut bd) = Some out /\ look f' (out ++ [stem ++ str ".go"]) = Some (EFile text')) l.
Proof.
  intros X C O cwd bs. induction l as [|b l IH]; intros f f' o HI H; [constructor|]. cbn [generateBuilds] in H.
  destruct (generateBuild X C O cwd b f) as [[f1 o1] oc1] eqn:E. destruct oc1; try discriminate.
  destruct (generateBuilds X C O cwd l f1) as [[f2 o2] oc2] eqn:E2. inversion H; subst.
  assert (K1 : forall q, Effect cwd bs f f1 q) by (eapply generateBuild_effect; eauto; apply HI; simpl; auto).
  assert (HI2 : incl l bs) by (intros x Hx; apply HI; simpl; auto).
  assert (K2 : forall q, Effect cwd bs f1 f' q) by (eapply generateBuilds_effect; [exact HI2|exact E2]).
  constructor.
  - destruct b as [b|]; [|inversion E]. destruct (C42_build_outputs _ _ _ _ _ _ _ _ E) as (dir & HD & _ & HK). exists b, dir. split; auto. split; auto.
    intros stem N. destruct (HK stem N) as (out & s & text & HO & HS & HC & HL). destruct (file_kept _ _ _ _ _ _ K2 HL) as [text' HT]. exists out, s, text, text'. auto.
  - specialize (IH _ _ _ HI2 E2). eapply Forall_impl; [|exact IH]. intros x (bd & dir & -> & HD & HK). exists bd, dir. split; auto. split; auto.
    intros stem N. pose proof (source_kept _ _ _ _ _ _ K1 N) as ES. destruct (HK stem (fun K => N (eq_trans (eq_sym ES) K))) as (out & s & text & text' & HS & R). exists out, s, text, text'. split; [exact (eq_trans (eq_sym ES) HS)|exact R].
Qed.

(** generate: status 0 means that every source of every build was accepted and has an
    output; nothing is then written to stderr. *)
Theorem C72_generate : forall X M O cwd f stdin args pr n, In n [str "generate"; str "gen"] -> main X M O cwd true f stdin (n :: args) = Some pr ->
  exitStatus (prEnd pr) = Some 0 ->
  prErr pr = [] /\
  Forall (fun b => exists bd dir, b = Some bd /\ pathOf cwd (bSource bd) = Some dir /\
    forall stem, look f (dir ++ [stem ++ str ".cddl"]) <> None ->
      exists out s text text', look f (dir ++ [stem ++ str ".cddl"]) = Some (EFile s) /\ Compiled X (mCli M) (bPackage bd) s text /\
        pathOf cwd (bOut bd) = Some out /\ look (prFs pr) (out ++ [stem ++ str ".go"]) = Some (EFile text')) (buildsOf (mCli M) O f cwd).
Proof.
  intros X M O cwd f stdin args pr n HN H HE.
  assert (H' : Some (runCommand X M O cwd true f stdin CGenerate args) = Some pr) by (destruct HN as [<-|[<-|[]]]; exact H). clear H HN. cbn [runCommand] in H'.
  destruct (generateCmd X (mCli M) O (Some cwd) f) as [[f' outs] e] eqn:E. inversion H'; subst; clear H'. cbn [prEnd finish] in HE. destruct e; try discriminate.
  split; [reflexivity|]. cbn [prFs finish]. unfold generateCmd in E. unfold buildsOf. destruct (loadConfigFromDir (mCli M) O f cwd) as [e|[c|]]; [discriminate| |];
    eapply builds_sources; eauto; apply incl_refl.
Qed.

(** A source with diagnostics: they go to stderr and the status is 1. *)
Theorem C72_generate_report : forall X M O cwd f f' stdin args outs n, In n [str "generate"; str "gen"] ->
  generateCmd X (mCli M) O (Some cwd) f = (f', outs, Failure EParser) ->
  exists pr, main X M O cwd true f stdin (n :: args) = Some pr /\ exitStatus (prEnd pr) = Some 1 /\
    prErr pr = printed ([] :: outs) ++ mFatal M EParser.
Proof.
  intros X M O cwd f f' stdin args outs n HN H. exists (runCommand X M O cwd true f stdin CGenerate args). split; [destruct HN as [<-|[<-|[]]]; reflexivity|].
  cbn [runCommand]. rewrite H. cbn. auto.
Qed.

(** The notice, and nothing else, is what generate prints on stdout. *)
Theorem C72_generate_notice : forall X M O cwd f stdin args pr n, In n [str "generate"; str "gen"] -> main X M O cwd true f stdin (n :: args) = Some pr ->
  Listable O f cwd -> cwd <> [] ->
  ((forall n, ~ Candidate f cwd n) -> prOut pr = printed [str "could not find either cddlc.json or cddlc.yaml in current dir `" ++
     concat (map (fun c => str "/" ++ c) cwd) ++ str "` ...falling back to default config"]) /\
  (forall n, Candidate f cwd n -> prOut pr = []).
Proof.
  intros X M O cwd f stdin args pr n HN H HL NE.
  assert (H' : Some (runCommand X M O cwd true f stdin CGenerate args) = Some pr) by (destruct HN as [<-|[<-|[]]]; exact H). clear H HN. cbn [runCommand] in H'.
  destruct (generateCmd X (mCli M) O (Some cwd) f) as [[f' outs] e] eqn:E. inversion H'; subst; clear H'. cbn [prOut finish].
  destruct (C44_first (mCli M) O f cwd HL) as [K _]. split.
  - intros HC. apply K in HC. rewrite HC. unfold noConfigText, printed, ln, pathText. destruct cwd as [|c cwd]; [congruence|]. rewrite flat_map_concat_map. cbn [flat_map].
    rewrite <- !app_assoc. cbn [app]. reflexivity.
  - intros m HC. destruct (loadConfigFromDir (mCli M) O f cwd) as [e0|[c|]]; auto. exfalso. apply (proj1 K eq_refl m HC).
Qed.

(** The file a command line names. *)
Definition Named (O : OsExt) (cwd : path) (f : fs) (a s : bytes) : Prop :=
  exists p, pathOf cwd a = Some p /\ dirOnly a = false /\ readFile O f p = Some s.

Lemma named_open : forall O cwd f a s, Named O cwd f a s -> openArg O cwd f a = Some s.
Proof. intros O cwd f a s (p & P & D & R). unfold openArg. now rewrite P, D. Qed.

Lemma scanTrace_panic : forall X n l ts, scanTrace X n l = (ts, Panic) -> exists l', scans X (length ts) l = Ok (ts, l') /\ scan X l' = Panic.
Proof.
  intros X. induction n as [|n IH]; intros l ts H; cbn [scanTrace] in H; [discriminate|].
  destruct (scan X l) as [[t l']| | |] eqn:E; try discriminate.
  - destruct (teq (tTok t) EOF); [discriminate|]. destruct (scanTrace X n l') as [ts' r] eqn:ET. inversion H; subst. destruct (IH _ _ ET) as (l2 & S & P).
    exists l2. cbn [length scans]. rewrite E. cbn [rbind]. rewrite S. auto.
  - inversion H; subst. exists l. auto.
Qed.

(** lex prints every token; the status is 0 exactly if none is ILLEGAL. On a crash the
    status is 2 and the tokens before it have been printed. *)
Theorem C72_lex : forall X M O cwd wdOk f stdin a s, Named O cwd f a s -> decodable s ->
  exists pr, main X M O cwd wdOk f stdin [str "lex"; a] = Some pr /\ prFs pr = f /\
  ((exists ts, TokensOf X s 0 ts /\ prOut pr = printed (map tokenShown ts) /\
      (Forall (fun t => tTok t <> ILLEGAL) ts -> exitStatus (prEnd pr) = Some 0 /\ prErr pr = []) /\
      (Exists (fun t => tTok t = ILLEGAL) ts -> exitStatus (prEnd pr) = Some 1)) \/
   (exists ts l, scans X (length ts) (newLexer s) = Ok (ts, l) /\ scan X l = Panic /\ prOut pr = printed (map tokenShown ts) /\ exitStatus (prEnd pr) = Some 2)).
Proof.
  intros X M O cwd wdOk f stdin a s HN D. exists (runCommand X M O cwd wdOk f stdin CLex [a]). split; [reflexivity|]. cbn [runCommand]. rewrite (named_open _ _ _ _ _ HN).
  assert (EP : forall ts, flat_map tokenLine ts = printed (map tokenShown ts)).
  { unfold printed. induction ts as [|t ts IH]; [reflexivity|]. cbn [flat_map map]. rewrite IH. unfold tokenLine, tokenShown. now rewrite <- !app_assoc. }
  pose proof (scanTrace_end X (S (length s)) (newLexer s)) as KE. destruct (scanTrace X (S (length s)) (newLexer s)) as [ts r] eqn:ET. cbn [snd] in KE.
  split; [reflexivity|]. cbn [prOut prEnd prErr finish]. rewrite EP.
  destruct (C01_decodable_reaches_eof X s D) as [P|[ts0 P]]; unfold scanAll in P; rewrite P in KE; cbn [rbind] in KE; subst r.
  - right. destruct (scanTrace_panic _ _ _ _ ET) as (l & S & K). exists ts, l. auto.
  - left. exists ts. split; [apply C66_tokens; auto; now apply scanTrace_iff|]. split; auto. rewrite illegal_filter. split.
    + intros F. assert (E : illegal ts = 0).
      { clear - F. induction F as [|t ts K F IH]; [reflexivity|]. cbn [illegal]. destruct (tTok t); auto; congruence. }
      rewrite E. auto.
    + intros F. assert (E : 0 < illegal ts).
      { assert (NN : forall l, 0 <= illegal l) by (induction l as [|t l IH]; cbn [illegal]; [lia|destruct (tTok t); lia]).
        clear - F NN. induction F as [t ts K|t ts F IH]; cbn [illegal]; [rewrite K; specialize (NN ts); lia|destruct (tTok t); lia]. }
      replace (0 <? illegal ts) with true by lia. reflexivity.
Qed.

(** parse: the status depends on the encoding of the tree alone; the diagnostics go to stderr. *)
Theorem C72_parse : forall X M O cwd wdOk f stdin a s root ds p outs, Named O cwd f a s -> parse X s = Ok ((root, ds), p) ->
  match ds with None => outs = [] | Some l => exists o, errorStringer (mCli M) s l = Ok o /\ outs = printed ([] :: o) end ->
  exists pr, main X M O cwd wdOk f stdin [str "parse"; a] = Some pr /\ prFs pr = f /\
    match cMarshal (mCli M) root with
    | Some t => exitStatus (prEnd pr) = Some 0 /\ prOut pr = printed [t] /\ prErr pr = outs
    | None => exitStatus (prEnd pr) = Some 1 /\ prErr pr = outs ++ mFatal M EMarshal
    end.
Proof.
  intros X M O cwd wdOk f stdin a s root ds p outs HN HP HO. exists (runCommand X M O cwd wdOk f stdin CParse [a]). split; [reflexivity|]. cbn [runCommand].
  rewrite (named_open _ _ _ _ _ HN), HP.
  assert (E : (match ds with Some l => o <- errorStringer (mCli M) s l;; Ok (reportText o) | None => Ok [] end) = Ok outs).
  { destruct ds as [l|]; [destruct HO as (o & -> & ->); reflexivity|now subst]. }
  rewrite E. destruct (cMarshal (mCli M) root) as [t|]; cbn; auto. unfold ln. now rewrite app_nil_r.
Qed.

Theorem C72_parse_crash : forall X M O cwd wdOk f stdin a s, Named O cwd f a s -> parse X s = Panic ->
  exists pr, main X M O cwd wdOk f stdin [str "parse"; a] = Some pr /\ prFs pr = f /\ prOut pr = [] /\ exitStatus (prEnd pr) = Some 2.
Proof.
  intros X M O cwd wdOk f stdin a s HN HP. exists (runCommand X M O cwd wdOk f stdin CParse [a]). split; [reflexivity|]. cbn [runCommand].
  rewrite (named_open _ _ _ _ _ HN), HP. auto.
Qed.

(** lex and parse take exactly one argument. *)
Theorem C72_arguments : forall X M O cwd wdOk f stdin n args, In n [str "lex"; str "parse"] -> length args <> 1%nat ->
  exists pr, main X M O cwd wdOk f stdin (n :: args) = Some pr /\ prFs pr = f /\ prOut pr = [] /\ exitStatus (prEnd pr) = Some 1.
Proof.
  intros X M O cwd wdOk f stdin n args HN HL. destruct HN as [<-|[<-|[]]]; destruct args as [|a [|b args]]; try (cbn in HL; lia); eexists; (split; [reflexivity|auto]).
Qed.

(** qrepl: the greeting and the transcript; status 0 after [:exit] and 1 at the end of the
    input, 2 after a crash. *)
Theorem C72_repl : forall X M O cwd wdOk f stdin args lines, Reads stdin lines ->
  let lex := match args with a :: _ => beq a (str "--lex") || beq a (str "-lex") | [] => false end in
  exists pr, main X M O cwd wdOk f stdin (str "qrepl" :: args) = Some pr /\ prFs pr = f /\
  (forall o e, (lex = true -> Forall decodable lines) -> Session X M lex (mkSession [] false) lines o e ->
     prOut pr = str "Welcome to the cddlc quick repl." ++ [10] ++ o /\
     exitStatus (prEnd pr) = match e with Success => Some 0 | _ => Some 1 end) /\
  (replLoop X (mkReplExt trimSpace (mFmtF M)) lex (mkSession [] false) lines = Panic -> exitStatus (prEnd pr) = Some 2).
Proof.
  intros X M O cwd wdOk f stdin args lines HR lex. exists (runCommand X M O cwd wdOk f stdin CRepl args). split; [reflexivity|]. cbn [runCommand]. fold lex. unfold replCmd.
  apply C70_lines in HR. rewrite HR. change newEnvironment with (@nil (bytes * node)).
  pose proof (C71_same_session X M lex lines (mkSession [] false)) as K.
  destruct (replLines X M lex (mkSession [] false) lines) as [o0 e0] eqn:E. cbn [prFs prOut prEnd finish]. split; auto. split.
  - intros o e D HS. apply C71_session in HS as [HS HE]; auto. rewrite HS in E. inversion E; subst. split.
    + unfold greeting, ln. now rewrite <- app_assoc.
    + destruct HE as [->| ->]; reflexivity.
  - intros HP. rewrite HP in K. cbn [snd] in K. subst e0. reflexivity.
Qed.

(** doctor *)
Theorem C72_doctor : forall X M O cwd wdOk f stdin args,
  exists pr, main X M O cwd wdOk f stdin (str "doctor" :: args) = Some pr /\ prFs pr = f /\ exitStatus (prEnd pr) = Some 0 /\ prErr pr = [] /\
    prOut pr = printed [[]; str "Version" ++ [9; 9] ++ str ": " ++ mVersion M; str "Commit" ++ [9; 9] ++ str ": " ++ mCommit M;
                        str "Build Date" ++ [9] ++ str ": " ++ mDate M; str "Runtime" ++ [9; 9] ++ str ": " ++ mGoos M;
                        str "Arch" ++ [9; 9] ++ str ": " ++ mGoarch M; []].
Proof.
  intros. eexists. split; [reflexivity|]. split; [reflexivity|]. split; [reflexivity|]. split; [reflexivity|].
  cbn [prOut runCommand finish]. unfold doctorText, printed, ln. cbn [flat_map]. rewrite <- !app_assoc. cbn [app]. reflexivity.
Qed.

Definition shownBy (p : option proc) : option (bytes * option Z) := match p with Some p => Some (prOut p, exitStatus (prEnd p)) | None => None end.

Example C72_ex : let go := fun argv => shownBy (main X0 sampleMain noRefusals home true sampleFs (printed [str ":exit"]) argv) in
  go [str "init"] = Some ([], Some 0) /\
  go [str "gen"] = Some (printed [str "could not find either cddlc.json or cddlc.yaml in current dir `/p` ...falling back to default config"], Some 1) /\
  go [str "lex"; str "a.cddl"] = Some (printed [str "1:1: IDENT -> a"; str "1:3: = -> ="; str "1:5: int -> int"; str "1:8: EOF -> "], Some 0) /\
  go [str "lex"; str "./dist"] = Some ([], Some 1) /\
  go [str "lex"] = Some ([], Some 1) /\
  option_map snd (go [str "parse"; str "b.cddl"]) = Some (Some 0) /\
  go [str "qrepl"] = Some (printed [str "Welcome to the cddlc quick repl."; str ">>> exiting..."], Some 0) /\
  go [str "check"] = None.
Proof. vm_compute. repeat split. Qed.
