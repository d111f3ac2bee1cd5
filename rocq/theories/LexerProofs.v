(** Facts about the lexer model on decodable sources: the state is described by
    the consumed prefix and the remaining suffix of the source, and one call of
    Scan by a function [lexOne] on suffixes. *)
From Coq Require Import String.
From Verif Require Import Base Utf8 Token Ext Lexer LexSpec.
Open Scope string_scope.
Open Scope list_scope.
Open Scope Z_scope.

(** * Lists *)

Lemma skipn_len_app : forall {A} (a b : list A), skipn (length a) (a ++ b) = b.
Proof. intros. rewrite skipn_app, skipn_all, Nat.sub_diag. reflexivity. Qed.

Lemma firstn_len_app : forall {A} (a b : list A), firstn (length a) (a ++ b) = a.
Proof. intros. rewrite firstn_app, firstn_all, Nat.sub_diag. simpl. apply app_nil_r. Qed.

Lemma zlen_app : forall {A} (a b : list A), zlen (a ++ b) = zlen a + zlen b.
Proof. intros; unfold zlen. rewrite app_length; lia. Qed.

Lemma zlen_nonneg : forall {A} (a : list A), 0 <= zlen a.
Proof. intros; unfold zlen; lia. Qed.

Lemma zlen_cons : forall {A} (x : A) a, zlen (x :: a) = 1 + zlen a.
Proof. intros; unfold zlen; simpl length; lia. Qed.

Lemma zlen_nil : forall {A}, zlen (@nil A) = 0.
Proof. reflexivity. Qed.

Lemma gslice_mid : forall a b c, gslice (a ++ b ++ c) (zlen a) (zlen a + zlen b) = Ok b.
Proof.
  intros. unfold gslice. pose proof (zlen_nonneg a). pose proof (zlen_nonneg b).
  pose proof (zlen_nonneg c).
  assert (Z.of_nat (length (a ++ b ++ c)) = zlen a + zlen b + zlen c)
    by (unfold zlen; rewrite !app_length; lia).
  rewrite H2.
  replace ((0 <=? zlen a) && (zlen a <=? zlen a + zlen b) && (zlen a + zlen b <=? zlen a + zlen b + zlen c))
    with true.
  - f_equal. replace (Z.to_nat (zlen a + zlen b - zlen a)) with (length b) by (unfold zlen; lia).
    replace (Z.to_nat (zlen a)) with (length a) by (unfold zlen; lia).
    now rewrite skipn_len_app, firstn_len_app.
  - symmetry. rewrite !andb_true_iff, !Z.leb_le. lia.
Qed.

(** * Decoding *)

Lemma inRangeB_true : forall lo hi b, inRangeB lo hi b = true <-> lo <= b <= hi.
Proof. intros; unfold inRangeB; rewrite andb_true_iff, !Z.leb_le; tauto. Qed.

Lemma decode_ascii : forall b r, b < 128 -> decodeRune (b :: r) = (b, 1).
Proof. intros b r H; simpl. apply Z.ltb_lt in H; now rewrite H. Qed.

Lemma utf8Lead_some : forall p0 sz lo hi, utf8Lead p0 = Some (sz, lo, hi) ->
  128 <= lo /\ hi <= 191 /\
  ((sz = 2 /\ 194 <= p0 <= 223 /\ lo = 128 /\ hi = 191) \/
   (sz = 3 /\ 224 <= p0 <= 239 /\ (p0 = 224 -> lo = 160)) \/
   (sz = 4 /\ 240 <= p0 <= 244 /\ (p0 = 240 -> lo = 144))).
Proof.
  unfold utf8Lead; intros p0 sz lo hi H.
  repeat match type of H with
  | (if ?c then _ else _) = _ => let E := fresh "E" in destruct c eqn:E
  end; inversion H; subst; unfold inRangeB in *;
  rewrite ?andb_true_iff, ?Z.leb_le, ?Z.eqb_eq, ?andb_false_iff, ?Z.leb_gt, ?Z.eqb_neq in *; lia.
Qed.

(** A successfully decoded multi-byte rune. *)
Lemma decode_hi : forall b s r w, bytesOk (b :: s) -> 128 <= b ->
  decodeRune (b :: s) = (r, w) -> r <> RuneError ->
  exists cs t, s = cs ++ t /\ w = Z.of_nat (S (length cs)) /\ Forall (fun c => 128 <= c) cs /\
    (1 <= length cs <= 3)%nat /\ 128 <= r < 1114112 /\
    (forall t', decodeRune ((b :: cs) ++ t') = (r, w)) /\ encodeRune r = b :: cs.
Proof.
  intros b s r w Hok Hb Hd Hr.
  assert (Hb2 : 0 <= b < 256) by (inversion Hok; auto).
  simpl in Hd. replace (b <? 128) with false in Hd by (symmetry; apply Z.ltb_ge; lia).
  destruct (utf8Lead b) as [[[sz lo] hi]|] eqn:L; [|inversion Hd; subst; congruence].
  pose proof (utf8Lead_some _ _ _ _ L) as (Hlo & Hhi & Hcases).
  destruct s as [|b1 r1]; [inversion Hd; subst; congruence|].
  destruct (sz =? 2) eqn:E2.
  { destruct (inRangeB lo hi b1) eqn:R1; [|inversion Hd; subst; congruence].
    pose proof (proj1 (inRangeB_true _ _ _) R1) as B1.
    apply Z.eqb_eq in E2; subst sz.
    inversion Hd; subst r w.
    assert (194 <= b <= 223) by lia.
    assert (M1 : b mod 32 = b - 192) by (rewrite (Z.mod_eq b 32) by lia; assert (b / 32 = 6) by (symmetry; apply (Z.div_unique b 32 6 (b - 192)); lia); lia).
    assert (M2 : b1 mod 64 = b1 - 128) by (symmetry; apply (Z.mod_unique b1 64 2); lia).
    exists [b1], r1. repeat split; auto; try lia; simpl.
    - constructor; [lia|constructor].
    - intros t'. replace (b <? 128) with false by (symmetry; apply Z.ltb_ge; lia).
      now rewrite L, R1.
    - unfold encodeRune. rewrite M1, M2.
      replace ((0 <=? _) && (_ <? 128)) with false by (symmetry; apply andb_false_iff; right; apply Z.ltb_ge; lia).
      replace ((0 <=? _) && (_ <? 2048)) with true by (symmetry; apply andb_true_iff; split; [apply Z.leb_le|apply Z.ltb_lt]; lia).
      f_equal; [|f_equal].
      + assert (((b - 192) * 64 + (b1 - 128)) / 64 = b - 192) by (symmetry; apply (Z.div_unique _ 64 _ (b1 - 128)); lia). lia.
      + assert (((b - 192) * 64 + (b1 - 128)) mod 64 = b1 - 128) by (symmetry; apply (Z.mod_unique _ 64 (b - 192)); lia). lia. }
  destruct r1 as [|b2 r2]; [inversion Hd; subst; congruence|].
  destruct (sz =? 3) eqn:E3.
  { destruct (inRangeB lo hi b1 && inRangeB 128 191 b2) eqn:R1; [|inversion Hd; subst; congruence].
    pose proof (proj1 (andb_true_iff _ _) R1) as [R1a R1b].
    apply inRangeB_true in R1a; apply inRangeB_true in R1b.
    apply Z.eqb_eq in E3; subst sz.
    assert (Hsur : b = 237 -> b1 <= 159).
    { intros ->. vm_compute in L. inversion L; subst; lia. }
    inversion Hd; subst r w.
    assert (224 <= b <= 239) by lia.
    assert (M1 : b mod 16 = b - 224) by (symmetry; apply (Z.mod_unique b 16 14); lia).
    assert (M2 : b1 mod 64 = b1 - 128) by (symmetry; apply (Z.mod_unique b1 64 2); lia).
    assert (M3 : b2 mod 64 = b2 - 128) by (symmetry; apply (Z.mod_unique b2 64 2); lia).
    assert (Hv : 128 <= b mod 16 * 4096 + b1 mod 64 * 64 + b2 mod 64 < 1114112).
    { rewrite M1, M2, M3. assert (b = 224 -> 160 <= b1) by lia. lia. }
    exists [b1; b2], r2. repeat split; auto; try (simpl; lia); simpl.
    - repeat constructor; lia.
    - intros t'. replace (b <? 128) with false by (symmetry; apply Z.ltb_ge; lia).
      now rewrite L, E2, R1.
    - unfold encodeRune. rewrite M1, M2, M3. set (v := (b - 224) * 4096 + (b1 - 128) * 64 + (b2 - 128)).
      assert (2048 <= v < 65536) by (unfold v; lia).
      assert (v < 55296 \/ 57343 < v) by (unfold v; lia).
      replace ((0 <=? v) && (v <? 128)) with false by (symmetry; apply andb_false_iff; right; apply Z.ltb_ge; lia).
      replace ((0 <=? v) && (v <? 2048)) with false by (symmetry; apply andb_false_iff; right; apply Z.ltb_ge; lia).
      assert (S : inRangeB 55296 57343 v = false).
      { destruct (inRangeB 55296 57343 v) eqn:I; auto. apply inRangeB_true in I; lia. }
      rewrite S.
      replace ((v <? 0) || (1114111 <? v) || false) with false
        by (symmetry; rewrite orb_false_r; apply orb_false_iff; split; apply Z.ltb_ge; lia).
      replace (v <? 65536) with true by (symmetry; apply Z.ltb_lt; lia).
      assert (D1 : v / 4096 = b - 224) by (symmetry; apply (Z.div_unique _ 4096 _ ((b1 - 128) * 64 + (b2 - 128))); unfold v; lia).
      assert (D2 : v / 64 = (b - 224) * 64 + (b1 - 128)) by (symmetry; apply (Z.div_unique _ 64 _ (b2 - 128)); unfold v; lia).
      assert (D3 : (v / 64) mod 64 = b1 - 128) by (rewrite D2; symmetry; apply (Z.mod_unique _ 64 (b - 224)); lia).
      assert (D4 : v mod 64 = b2 - 128) by (symmetry; apply (Z.mod_unique _ 64 ((b - 224) * 64 + (b1 - 128))); unfold v; lia).
      rewrite D1, D3, D4. repeat f_equal; lia. }
  destruct r2 as [|b3 r3]; [inversion Hd; subst; congruence|].
  destruct (inRangeB lo hi b1 && inRangeB 128 191 b2 && inRangeB 128 191 b3) eqn:R1; [|inversion Hd; subst; congruence].
  pose proof (proj1 (andb_true_iff _ _) R1) as [R1x R1c].
  pose proof (proj1 (andb_true_iff _ _) R1x) as [R1a R1b].
  apply inRangeB_true in R1a; apply inRangeB_true in R1b; apply inRangeB_true in R1c.
  apply Z.eqb_neq in E2; apply Z.eqb_neq in E3.
  assert (sz = 4 /\ 240 <= b <= 244 /\ (b = 240 -> lo = 144)) as (-> & Hb4 & Hb5) by lia.
  assert (Hmax : b = 244 -> b1 <= 143).
  { intros ->. vm_compute in L. inversion L; subst; lia. }
  inversion Hd; subst r w.
  assert (M1 : b mod 8 = b - 240) by (symmetry; apply (Z.mod_unique b 8 30); lia).
  assert (M2 : b1 mod 64 = b1 - 128) by (symmetry; apply (Z.mod_unique b1 64 2); lia).
  assert (M3 : b2 mod 64 = b2 - 128) by (symmetry; apply (Z.mod_unique b2 64 2); lia).
  assert (M4 : b3 mod 64 = b3 - 128) by (symmetry; apply (Z.mod_unique b3 64 2); lia).
  assert (Hv : 128 <= b mod 8 * 262144 + b1 mod 64 * 4096 + b2 mod 64 * 64 + b3 mod 64 < 1114112).
  { rewrite M1, M2, M3, M4. assert (b = 240 -> 144 <= b1) by lia. lia. }
  exists [b1; b2; b3], r3. repeat split; auto; try (simpl; lia); simpl.
  - repeat constructor; lia.
  - intros t'. replace (b <? 128) with false by (symmetry; apply Z.ltb_ge; lia).
    now rewrite L, R1.
  - unfold encodeRune. rewrite M1, M2, M3, M4.
    set (v := (b - 240) * 262144 + (b1 - 128) * 4096 + (b2 - 128) * 64 + (b3 - 128)).
    assert (65536 <= v < 1114112) by (unfold v; lia).
    replace ((0 <=? v) && (v <? 128)) with false by (symmetry; apply andb_false_iff; right; apply Z.ltb_ge; lia).
    replace ((0 <=? v) && (v <? 2048)) with false by (symmetry; apply andb_false_iff; right; apply Z.ltb_ge; lia).
    assert (S : inRangeB 55296 57343 v = false).
    { destruct (inRangeB 55296 57343 v) eqn:I; auto. apply inRangeB_true in I; lia. }
    rewrite S.
    replace ((v <? 0) || (1114111 <? v) || false) with false
      by (symmetry; rewrite orb_false_r; apply orb_false_iff; split; apply Z.ltb_ge; lia).
    replace (v <? 65536) with false by (symmetry; apply Z.ltb_ge; lia).
    assert (D1 : v / 262144 = b - 240) by (symmetry; apply (Z.div_unique _ 262144 _ ((b1 - 128) * 4096 + (b2 - 128) * 64 + (b3 - 128))); unfold v; lia).
    assert (D2 : v / 4096 = (b - 240) * 64 + (b1 - 128)) by (symmetry; apply (Z.div_unique _ 4096 _ ((b2 - 128) * 64 + (b3 - 128))); unfold v; lia).
    assert (D3 : (v / 4096) mod 64 = b1 - 128) by (rewrite D2; symmetry; apply (Z.mod_unique _ 64 (b - 240)); lia).
    assert (D4 : v / 64 = (b - 240) * 4096 + (b1 - 128) * 64 + (b2 - 128)) by (symmetry; apply (Z.div_unique _ 64 _ (b3 - 128)); unfold v; lia).
    assert (D5 : (v / 64) mod 64 = b2 - 128) by (rewrite D4; symmetry; apply (Z.mod_unique _ 64 ((b - 240) * 64 + (b1 - 128))); lia).
    assert (D6 : v mod 64 = b3 - 128) by (symmetry; apply (Z.mod_unique _ 64 ((b - 240) * 4096 + (b1 - 128) * 64 + (b2 - 128))); unfold v; lia).
    rewrite D1, D3, D5, D6. repeat f_equal; lia.
Qed.

Lemma encode_ascii : forall c, 0 <= c < 128 -> encodeRune c = [c].
Proof.
  intros c H; unfold encodeRune.
  replace ((0 <=? c) && (c <? 128)) with true; auto.
  symmetry; apply andb_true_iff; split; [apply Z.leb_le|apply Z.ltb_lt]; lia.
Qed.

(** One decoded rune at the front of a decodable string. *)
Lemma dec_cons : forall s, bytesOk s -> Dec s -> s <> [] ->
  exists r cs t, s = cs ++ t /\ (1 <= length cs <= 4)%nat /\
    (forall t', decodeRune (cs ++ t') = (r, Z.of_nat (length cs))) /\
    r <> RuneError /\ 0 <= r < 1114112 /\ Dec t /\ bytesOk t /\ encodeRune r = cs /\
    ((r < 128 /\ cs = [r]) \/ (128 <= r /\ Forall (fun c => 128 <= c) cs)).
Proof.
  intros s Hok HD Hne. destruct HD as [|s r w _ Hd Hr HD]; [congruence|].
  destruct s as [|b s]; [congruence|].
  assert (Hb : 0 <= b < 256) by (inversion Hok; auto).
  destruct (Z_lt_ge_dec b 128) as [Hl|Hg].
  - rewrite decode_ascii in Hd by auto. inversion Hd; subst.
    exists r, [r], s. simpl. repeat split; auto; try lia.
    + intros t'. now rewrite (proj2 (Z.ltb_lt r 128)).
    + inversion Hok; auto.
    + apply encode_ascii; lia.
  - destruct (decode_hi b s r w) as (cs & t & -> & -> & Hcs & Hlen & Hrr & Hst & He); auto; try lia.
    exists r, (b :: cs), t. simpl length. repeat split; auto; try lia.
    + change (b :: cs ++ t) with ((b :: cs) ++ t) in HD.
      replace (Z.to_nat (Z.of_nat (S (length cs)))) with (length (b :: cs)) in HD by (simpl; lia).
      now rewrite skipn_len_app in HD.
    + unfold bytesOk in *. inversion Hok; subst. apply Forall_app in H2; tauto.
    + right. split; [lia|]. constructor; [lia|auto].
Qed.

(** * Lexer states by prefix and suffix *)

(** The rune at the front of a suffix; the appended space when there is none. *)
Definition hdR (suf : bytes) : Z :=
  match suf with [] => 32 | _ => fst (decodeRune suf) end.

(** The lexer has consumed [pre] of the source [s] and [suf] remains. *)
Record At (s : bytes) (l : lexer) (pre suf : bytes) : Prop := mkAt {
  at_src : src l = s ++ [32];
  at_split : s = pre ++ suf;
  at_off : offset l = zlen pre;
  at_chr : chr l = hdR suf \/ (suf = [] /\ chr l = -1);
  at_rd : rdOffset l = match suf with [] => zlen s + 1 | _ => zlen pre + snd (decodeRune suf) end
}.

(** Fields [next] does not touch. *)
Record same (l l' : lexer) : Prop := mkSame {
  same_src : src l' = src l;
  same_errCount : errCount l' = errCount l;
  same_errors : errors l' = errors l;
  same_lines : lineOffsets l' = lineOffsets l
}.

Lemma same_refl : forall l, same l l.
Proof. split; auto. Qed.

Lemma same_trans : forall a b c, same a b -> same b c -> same a c.
Proof. intros a b c [] []; split; congruence. Qed.

Lemma next_same : forall l, same l (next l).
Proof.
  intros; unfold next. destruct (_ <=? _); [split; auto|].
  destruct (decodeRune _) as [ch w]. destruct (ch =? RuneError); split; auto.
Qed.

Definition Good (s : bytes) : Prop := bytesOk s /\ Dec s.

(** The rune at the front of a good non-empty suffix, packaged. *)
Record Rune (suf : bytes) (r : Z) (cs t : bytes) : Prop := mkRune {
  ru_split : suf = cs ++ t;
  ru_len : (1 <= length cs <= 4)%nat;
  ru_dec : forall t', decodeRune (cs ++ t') = (r, Z.of_nat (length cs));
  ru_ok : r <> RuneError;
  ru_range : 0 <= r < 1114112;
  ru_good : Good t;
  ru_enc : encodeRune r = cs;
  ru_case : (r < 128 /\ cs = [r]) \/ (128 <= r /\ Forall (fun c => 128 <= c) cs)
}.

Lemma good_rune : forall suf, Good suf -> suf <> [] -> exists r cs t, Rune suf r cs t.
Proof.
  intros suf [Hok HD] Hne. destruct (dec_cons suf Hok HD Hne)
    as (r & cs & t & H1 & H2 & H3 & H4 & H5 & H6 & H7 & H8 & H9).
  exists r, cs, t. split; auto. split; auto.
Qed.

Lemma rune_ne : forall suf r cs t, Rune suf r cs t -> suf <> [].
Proof. intros suf r cs t [H1 H2 _ _ _ _ _ _]. rewrite H1. destruct cs; simpl in *; [lia|congruence]. Qed.

Lemma rune_hdR : forall suf r cs t, Rune suf r cs t -> hdR suf = r.
Proof.
  intros suf r cs t H. pose proof (rune_ne _ _ _ _ H). destruct H as [H1 _ H2 _ _ _ _ _].
  unfold hdR. destruct suf; [congruence|]. now rewrite H1, H2.
Qed.

Lemma rune_decode : forall suf r cs t, Rune suf r cs t -> decodeRune suf = (r, Z.of_nat (length cs)).
Proof. intros suf r cs t [H1 _ H2 _ _ _ _ _]. now rewrite H1. Qed.

(** [next] on a state with something left. *)
Lemma next_at : forall s l pre suf r cs t, At s l pre suf -> Rune suf r cs t ->
  At s (next l) (pre ++ cs) t /\ chr (next l) = hdR t /\ same l (next l).
Proof.
  intros s l pre suf r cs t A R.
  pose proof (rune_ne _ _ _ _ R) as Hne. pose proof (rune_decode _ _ _ _ R) as Hd.
  split; [|split; [|apply next_same]].
  all: destruct A as [A1 A2 A3 A4 A5]; destruct R as [R1 R2 R3 R4 R5 R6 R7 R8].
  all: assert (Hrd : rdOffset l = zlen pre + zlen cs)
      by (destruct suf; [congruence|]; rewrite A5, Hd; reflexivity).
  all: assert (Hs : src l = (pre ++ cs) ++ t ++ [32])
      by (rewrite A1, A2, R1, <- !app_assoc; reflexivity).
  all: assert (Hl : Z.of_nat (length (src l)) = zlen pre + zlen cs + zlen t + 1)
      by (rewrite Hs; unfold zlen; rewrite !app_length; simpl length; lia).
  all: assert (Hsk : skipn (Z.to_nat (rdOffset l)) (src l) = t ++ [32])
      by (rewrite Hs, Hrd; replace (Z.to_nat (zlen pre + zlen cs)) with (length (pre ++ cs))
            by (rewrite app_length; unfold zlen; lia); apply skipn_len_app).
  all: pose proof (zlen_nonneg t).
  all: unfold next; rewrite Hl, Hrd in *.
  all: replace (zlen pre + zlen cs + zlen t + 1 <=? zlen pre + zlen cs) with false
      by (symmetry; apply Z.leb_gt; lia).
  all: rewrite Hsk.
  all: destruct t as [|b t'].
  1,3: cbn [app]; rewrite (decode_ascii 32 []) by lia; unfold RuneError; simpl.
  - split; simpl; auto.
    + now rewrite A2, R1, !app_nil_r.
    + now rewrite zlen_app.
    + rewrite A2, R1, !app_nil_r, zlen_app. lia.
  - reflexivity.
  - destruct (good_rune (b :: t') R6 ltac:(congruence)) as (r2 & cs2 & t2 & RR).
    pose proof (rune_decode _ _ _ _ RR) as Hd2. pose proof (rune_hdR _ _ _ _ RR) as Hh.
    rewrite (ru_split _ _ _ _ RR), <- app_assoc, (ru_dec _ _ _ _ RR).
    replace (r2 =? RuneError) with false by (symmetry; apply Z.eqb_neq; apply (ru_ok _ _ _ _ RR)).
    rewrite <- (ru_split _ _ _ _ RR).
    split; cbn [src chr offset rdOffset setCursor]; auto.
    + rewrite A2, R1, app_assoc. reflexivity.
    + now rewrite zlen_app.
    + rewrite Hd2, zlen_app. simpl. lia.
  - destruct (good_rune (b :: t') R6 ltac:(congruence)) as (r2 & cs2 & t2 & RR).
    pose proof (rune_hdR _ _ _ _ RR) as Hh.
    rewrite Hh. rewrite (ru_split _ _ _ _ RR), <- app_assoc, (ru_dec _ _ _ _ RR).
    replace (r2 =? RuneError) with false by (symmetry; apply Z.eqb_neq; apply (ru_ok _ _ _ _ RR)).
    reflexivity.
Qed.

(** [next] at the end of the source. *)
Lemma next_end : forall s l pre, At s l pre [] ->
  At s (next l) pre [] /\ chr (next l) = -1 /\ same l (next l).
Proof.
  intros s l pre A. split; [|split; [|apply next_same]].
  all: destruct A as [A1 A2 A3 A4 A5].
  all: assert (Hl : Z.of_nat (length (src l)) = zlen s + 1)
      by (rewrite A1, app_length; unfold zlen; simpl; lia).
  all: unfold next; rewrite Hl, A5, Z.leb_refl.
  - split; simpl; auto.
  - reflexivity.
Qed.

Lemma newLexer_at : forall s, Good s ->
  At s (newLexer s) [] s /\ errors (newLexer s) = [] /\ errCount (newLexer s) = 0 /\
  lineOffsets (newLexer s) = [-1] /\ chr (newLexer s) = hdR s.
Proof.
  intros s G.
  set (l0 := mkLexer (s ++ [32]) 0 0 0 0 [] [-1]).
  assert (H : next l0 = setCursor l0 (hdR s) 0 (match s with [] => zlen s + 1 | _ => snd (decodeRune s) end)).
  { unfold next. cbn [src rdOffset l0]. rewrite app_length. simpl length.
    replace (Z.of_nat (length s + 1) <=? 0) with false by (symmetry; apply Z.leb_gt; lia).
    change (skipn (Z.to_nat 0) (s ++ [32])) with (s ++ [32]).
    destruct s as [|b s'].
    - simpl. reflexivity.
    - destruct (good_rune (b :: s') G ltac:(congruence)) as (r & cs & t & R).
      pose proof (rune_decode _ _ _ _ R) as Hd. pose proof (rune_hdR _ _ _ _ R) as Hh.
      rewrite Hh, Hd. cbn [snd].
      rewrite (ru_split _ _ _ _ R), <- app_assoc, (ru_dec _ _ _ _ R).
      replace (r =? RuneError) with false by (symmetry; apply Z.eqb_neq; apply (ru_ok _ _ _ _ R)).
      f_equal. }
  unfold newLexer. fold l0. rewrite H. repeat split; simpl; auto.
Qed.

(** * Loops *)

(** Longest prefix of bytes satisfying [p], and the rest. *)
Fixpoint takeB (p : Z -> bool) (s : bytes) : bytes :=
  match s with [] => [] | c :: r => if p c then c :: takeB p r else [] end.
Fixpoint dropB (p : Z -> bool) (s : bytes) : bytes :=
  match s with [] => [] | c :: r => if p c then dropB p r else s end.

Lemma take_drop : forall p s, takeB p s ++ dropB p s = s.
Proof. induction s; simpl; auto. destruct (p a); simpl; congruence. Qed.

Lemma takeB_all : forall p s, forallb p (takeB p s) = true.
Proof. induction s; simpl; auto. destruct (p a) eqn:E; simpl; auto. now rewrite E, IHs. Qed.

Lemma dropB_hd : forall p s c r, dropB p s = c :: r -> p c = false.
Proof. induction s; simpl; intros c r H; [congruence|]. destruct (p a) eqn:E; eauto. inversion H; congruence. Qed.

Lemma takeB_app : forall p a b, forallb p a = true -> takeB p (a ++ b) = a ++ takeB p b.
Proof.
  induction a; simpl; intros b H; auto. apply andb_true_iff in H as [H1 H2].
  rewrite H1, IHa; auto.
Qed.

Lemma dropB_app : forall p a b, forallb p a = true -> dropB p (a ++ b) = dropB p b.
Proof.
  induction a; simpl; intros b H; auto. apply andb_true_iff in H as [H1 H2].
  rewrite H1, IHa; auto.
Qed.

(** The condition does not tell non-ASCII runes apart. *)
Definition uniform (cond : Z -> bool) : Prop :=
  exists K, forall c, 128 <= c -> cond c = K.

Lemma rune_take : forall cond suf r cs t, uniform cond -> Rune suf r cs t ->
  cond r = true -> takeB cond suf = cs ++ takeB cond t /\ dropB cond suf = dropB cond t.
Proof.
  intros cond suf r cs t [K HK] R Hc. rewrite (ru_split _ _ _ _ R).
  assert (F : forallb cond cs = true).
  { destruct (ru_case _ _ _ _ R) as [[_ ->]|[H1 H2]].
    - simpl. now rewrite Hc.
    - apply forallb_forall. rewrite Forall_forall in H2. intros x Hx.
      rewrite (HK x (H2 x Hx)), <- (HK r H1). exact Hc. }
  now rewrite takeB_app, dropB_app.
Qed.

Lemma rune_stop : forall cond suf r cs t, uniform cond -> Rune suf r cs t ->
  cond r = false -> takeB cond suf = [] /\ dropB cond suf = suf.
Proof.
  intros cond suf r cs t [K HK] R Hc. rewrite (ru_split _ _ _ _ R).
  destruct (ru_case _ _ _ _ R) as [[_ ->]|[H1 H2]].
  - simpl. now rewrite Hc.
  - destruct cs as [|c cs']; [pose proof (ru_len _ _ _ _ R); simpl in *; lia|].
    simpl. inversion H2; subst. rewrite (HK c) by lia. rewrite <- (HK r) by lia. now rewrite Hc.
Qed.

(** A loop of [next] calls stops after the longest prefix that satisfies the
    condition. *)
Lemma loopNext_at : forall cond s, uniform cond -> cond (-1) = false ->
  forall n l pre suf, At s l pre suf -> Good suf -> (length suf + 1 <= n)%nat ->
  exists l', loopNext cond n l = Ok l' /\ At s l' (pre ++ takeB cond suf) (dropB cond suf) /\
    Good (dropB cond suf) /\ same l l'.
Proof.
  intros cond s HU Hm1. induction n; intros l pre suf A G Hn; [lia|].
  destruct suf as [|b suf'].
  - simpl takeB; simpl dropB. rewrite app_nil_r. simpl loopNext.
    destruct (cond (chr l)) eqn:E; [|eexists; split; [reflexivity|auto using same_refl]].
    destruct (next_end _ _ _ A) as (A' & C' & S').
    assert (loopNext cond n (next l) = Ok (next l)).
    { destruct n; simpl; rewrite C', Hm1; reflexivity. }
    rewrite H. eexists; split; [reflexivity|auto].
  - destruct (good_rune _ G ltac:(congruence)) as (r & cs & t & R).
    assert (Hc : chr l = r).
    { rewrite <- (rune_hdR _ _ _ _ R). destruct (at_chr _ _ _ _ A) as [|[? _]]; congruence. }
    simpl loopNext. rewrite Hc. destruct (cond r) eqn:E.
    + destruct (next_at _ _ _ _ _ _ _ A R) as (A' & _ & S').
      destruct (rune_take _ _ _ _ _ HU R E) as [T1 T2]. rewrite T1, T2.
      destruct (IHn (next l) (pre ++ cs) t) as (l' & H1 & H2 & H3 & H4); auto.
      * apply (ru_good _ _ _ _ R).
      * pose proof (ru_len _ _ _ _ R). pose proof (f_equal (@length Z) (ru_split _ _ _ _ R)) as HL.
        rewrite app_length in HL. lia.
      * exists l'. rewrite app_assoc. split; auto. split; auto. split; auto.
        eapply same_trans; eauto.
    + destruct (rune_stop _ _ _ _ _ HU R E) as [T1 T2]. rewrite T1, T2, app_nil_r.
      exists l. auto using same_refl.
Qed.

Lemma at_len : forall s l pre suf, At s l pre suf -> (length suf + 1 <= loopFuel l)%nat.
Proof.
  intros s l pre suf []. unfold loopFuel. rewrite at_src0, at_split0, !app_length. simpl. lia.
Qed.

Lemma at_gslice : forall s l pre a b, At s l (pre ++ a) b ->
  gslice (src l) (zlen pre) (offset l) = Ok a.
Proof.
  intros s l pre a b []. rewrite at_src0, at_off0, at_split0, zlen_app.
  rewrite <- !app_assoc. apply gslice_mid.
Qed.

Lemma unif_space : uniform isSpace.
Proof. exists false; intros c H; unfold isSpace. rewrite !orb_false_iff, !Z.eqb_neq. lia. Qed.
Lemma unif_ident : uniform isIdentifierBodyChar.
Proof.
  exists false; intros c H; unfold isIdentifierBodyChar, isIdentifierStart, isDigit.
  rewrite !orb_false_iff, !andb_false_iff, !Z.eqb_neq, !Z.leb_gt. lia.
Qed.
Lemma unif_letter : uniform isLetter.
Proof.
  exists false; intros c H; unfold isLetter. rewrite !orb_false_iff, !andb_false_iff, !Z.leb_gt. lia.
Qed.
Lemma unif_hex : uniform isHex.
Proof.
  exists false; intros c H; unfold isHex, isDigit. rewrite !orb_false_iff, !andb_false_iff, !Z.leb_gt. lia.
Qed.
Lemma unif_octal : uniform isOctal.
Proof. exists false; intros c H; unfold isOctal. rewrite !andb_false_iff, !Z.leb_gt. lia. Qed.
Lemma unif_binary : uniform isBinary.
Proof. exists false; intros c H; unfold isBinary. rewrite !orb_false_iff, !Z.eqb_neq. lia. Qed.

Definition notNl (c : Z) : bool := (0 <=? c) && negb (c =? 10).
Lemma unif_notNl : uniform notNl.
Proof.
  exists true; intros c H; unfold notNl. rewrite andb_true_iff, negb_true_iff, Z.leb_le, Z.eqb_neq. lia.
Qed.
Definition inStr (c : Z) : bool := (0 <=? c) && negb (c =? 10) && negb (c =? 34).
Lemma unif_inStr : uniform inStr.
Proof.
  exists true; intros c H; unfold inStr. rewrite !andb_true_iff, !negb_true_iff, Z.leb_le, !Z.eqb_neq. lia.
Qed.
