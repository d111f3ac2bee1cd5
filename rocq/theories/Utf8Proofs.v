(** Encoding and decoding of runes. *)
From Verif Require Import Base Utf8 Json JsonSpec.

(** Decoding is the inverse of encoding. *)
Lemma decode_rune : forall s r w, decodeRune s = (r, w) -> ~ (r = RuneError /\ w <= 1) -> 0 <= r ->
  (exists u, s = encodeRune r ++ u /\ w = zlen (encodeRune r)) /\ (r < 128 \/ scalar r /\ 128 <= hd 0 s).
Proof.
  intros s r w H NE NN. unfold decodeRune in H. destruct s as [|p0 r0]; [inversion H; subst; exfalso; apply NE; split; [reflexivity|lia]|].
  destruct (p0 <? 128) eqn:E0.
  { inversion H; subst. split; [exists r0|left; lia]. unfold encodeRune. replace ((0 <=? r) && (r <? 128)) with true by lia. auto. }
  destruct (utf8Lead p0) as [[[sz lo] hi]|] eqn:EL; [|inversion H; subst; exfalso; apply NE; split; [reflexivity|lia]].
  unfold utf8Lead in EL.
  assert (KL : (sz = 2 /\ 194 <= p0 <= 223 /\ lo = 128 /\ hi = 191) \/ (sz = 3 /\ 224 <= p0 <= 239 /\ 128 <= lo /\ hi <= 191 /\ (p0 = 224 -> lo = 160) /\ (p0 = 237 -> hi = 159)) \/
               (sz = 4 /\ 240 <= p0 <= 244 /\ 128 <= lo /\ hi <= 191 /\ (p0 = 240 -> lo = 144) /\ (p0 = 244 -> hi = 143))).
  { unfold inRangeB in EL.
    repeat match type of EL with (if ?c then _ else _) = _ => destruct c eqn:?; [inversion EL; subst; clear EL; try (left; lia); try (right; left; lia); right; right; lia|] end. discriminate. }
  clear EL. destruct r0 as [|b1 r1]; [inversion H; subst; exfalso; apply NE; split; [reflexivity|lia]|].
  destruct KL as [(-> & HP & -> & ->)|[(-> & HP & HLo & HHi & H1 & H2)|(-> & HP & HLo & HHi & H1 & H2)]]; cbn [Z.eqb Pos.eqb] in H.
  - unfold inRangeB in H. destruct ((128 <=? b1) && (b1 <=? 191)) eqn:EB; [|inversion H; subst; exfalso; apply NE; split; [reflexivity|lia]]. inversion H; subst. clear H.
    assert (M0 : p0 mod 32 = p0 - 192) by (symmetry; apply Zmod_unique with 6; lia).
    assert (M1 : b1 mod 64 = b1 - 128) by (symmetry; apply Zmod_unique with 2; lia).
    rewrite M0, M1 in *. set (r := (p0 - 192) * 64 + (b1 - 128)) in *.
    assert (D : r / 64 = p0 - 192) by (symmetry; apply Zdiv_unique with (b1 - 128); unfold r; lia).
    assert (M : r mod 64 = b1 - 128) by (symmetry; apply Zmod_unique with (p0 - 192); unfold r; lia).
    split; [exists r1|right; unfold scalar; cbn [hd]; unfold r; lia].
    unfold encodeRune. replace ((0 <=? r) && (r <? 128)) with false by (unfold r; lia). replace ((0 <=? r) && (r <? 2048)) with true by (unfold r; lia).
    rewrite D, M. cbn [app]. split; [f_equal; [lia|f_equal; lia]|reflexivity].
  - destruct r1 as [|b2 r2]; [inversion H; subst; exfalso; apply NE; split; [reflexivity|lia]|]. unfold inRangeB in H.
    destruct (((lo <=? b1) && (b1 <=? hi)) && ((128 <=? b2) && (b2 <=? 191))) eqn:EB; [|inversion H; subst; exfalso; apply NE; split; [reflexivity|lia]]. inversion H; subst. clear H.
    assert (M0 : p0 mod 16 = p0 - 224) by (symmetry; apply Zmod_unique with 14; lia).
    assert (M1 : b1 mod 64 = b1 - 128) by (symmetry; apply Zmod_unique with 2; lia).
    assert (M2 : b2 mod 64 = b2 - 128) by (symmetry; apply Zmod_unique with 2; lia).
    rewrite M0, M1, M2 in *. set (r := (p0 - 224) * 4096 + (b1 - 128) * 64 + (b2 - 128)) in *.
    assert (D1 : r / 4096 = p0 - 224) by (symmetry; apply Zdiv_unique with ((b1 - 128) * 64 + (b2 - 128)); unfold r; lia).
    assert (D2 : r / 64 = (p0 - 224) * 64 + (b1 - 128)) by (symmetry; apply Zdiv_unique with (b2 - 128); unfold r; lia).
    assert (D3 : ((p0 - 224) * 64 + (b1 - 128)) mod 64 = b1 - 128) by (symmetry; apply Zmod_unique with (p0 - 224); lia).
    assert (D4 : r mod 64 = b2 - 128) by (symmetry; apply Zmod_unique with ((p0 - 224) * 64 + (b1 - 128)); unfold r; lia).
    assert (RL : 2048 <= r) by (unfold r; destruct (Z.eq_dec p0 224); [specialize (H1 e)|]; lia).
    assert (RS : ~ (55296 <= r <= 57343)) by (unfold r; destruct (Z.eq_dec p0 237); [specialize (H2 e)|]; lia).
    assert (RU : r < 65536) by (unfold r; lia).
    split; [exists r2|right; unfold scalar; cbn [hd]; lia].
    unfold encodeRune, inRangeB. replace ((0 <=? r) && (r <? 128)) with false by lia. replace ((0 <=? r) && (r <? 2048)) with false by lia.
    replace ((r <? 0) || (1114111 <? r) || ((55296 <=? r) && (r <=? 57343))) with false by lia. replace (r <? 65536) with true by lia.
    rewrite D1, D2, D3, D4. cbn [app]. split; [f_equal; [lia|f_equal; [lia|f_equal; lia]]|reflexivity].
  - destruct r1 as [|b2 r2]; [inversion H; subst; exfalso; apply NE; split; [reflexivity|lia]|]. destruct r2 as [|b3 r3]; [inversion H; subst; exfalso; apply NE; split; [reflexivity|lia]|]. unfold inRangeB in H.
    destruct (((lo <=? b1) && (b1 <=? hi)) && ((128 <=? b2) && (b2 <=? 191)) && ((128 <=? b3) && (b3 <=? 191))) eqn:EB; [|inversion H; subst; exfalso; apply NE; split; [reflexivity|lia]]. inversion H; subst. clear H.
    assert (M0 : p0 mod 8 = p0 - 240) by (symmetry; apply Zmod_unique with 30; lia).
    assert (M1 : b1 mod 64 = b1 - 128) by (symmetry; apply Zmod_unique with 2; lia).
    assert (M2 : b2 mod 64 = b2 - 128) by (symmetry; apply Zmod_unique with 2; lia).
    assert (M3 : b3 mod 64 = b3 - 128) by (symmetry; apply Zmod_unique with 2; lia).
    rewrite M0, M1, M2, M3 in *. set (r := (p0 - 240) * 262144 + (b1 - 128) * 4096 + (b2 - 128) * 64 + (b3 - 128)) in *.
    assert (D1 : r / 262144 = p0 - 240) by (symmetry; apply Zdiv_unique with ((b1 - 128) * 4096 + (b2 - 128) * 64 + (b3 - 128)); unfold r; lia).
    assert (D2 : r / 4096 = (p0 - 240) * 64 + (b1 - 128)) by (symmetry; apply Zdiv_unique with ((b2 - 128) * 64 + (b3 - 128)); unfold r; lia).
    assert (D3 : ((p0 - 240) * 64 + (b1 - 128)) mod 64 = b1 - 128) by (symmetry; apply Zmod_unique with (p0 - 240); lia).
    assert (D4 : r / 64 = (p0 - 240) * 4096 + (b1 - 128) * 64 + (b2 - 128)) by (symmetry; apply Zdiv_unique with (b3 - 128); unfold r; lia).
    assert (D5 : ((p0 - 240) * 4096 + (b1 - 128) * 64 + (b2 - 128)) mod 64 = b2 - 128) by (symmetry; apply Zmod_unique with ((p0 - 240) * 64 + (b1 - 128)); lia).
    assert (D6 : r mod 64 = b3 - 128) by (symmetry; apply Zmod_unique with ((p0 - 240) * 4096 + (b1 - 128) * 64 + (b2 - 128)); unfold r; lia).
    assert (RL : 65536 <= r) by (unfold r; destruct (Z.eq_dec p0 240); [specialize (H1 e)|]; lia).
    assert (RU : r <= 1114111) by (unfold r; destruct (Z.eq_dec p0 244); [specialize (H2 e)|]; lia).
    split; [exists r3|right; unfold scalar; cbn [hd]; lia].
    unfold encodeRune, inRangeB. replace ((0 <=? r) && (r <? 128)) with false by lia. replace ((0 <=? r) && (r <? 2048)) with false by lia.
    replace ((r <? 0) || (1114111 <? r) || ((55296 <=? r) && (r <=? 57343))) with false by lia. replace (r <? 65536) with false by lia.
    rewrite D1, D2, D3, D4, D5, D6. cbn [app]. split; [f_equal; [lia|f_equal; [lia|f_equal; [lia|f_equal; lia]]]|reflexivity].
Qed.


Lemma encode_rune : forall r u, scalar r -> decodeRune (encodeRune r ++ u) = (r, zlen (encodeRune r)).
Proof.
  intros r u [H NS]. unfold encodeRune, inRangeB. destruct ((0 <=? r) && (r <? 128)) eqn:E1.
  { cbn [app]. unfold decodeRune. replace (r <? 128) with true by lia. reflexivity. }
  pose proof (Z_mod_lt r 64 eq_refl) as B0. pose proof (Z_div_mod_eq_full r 64) as D0.
  assert (MM : forall x, (128 + x mod 64) mod 64 = x mod 64).
  { intros x. pose proof (Z_mod_lt x 64 eq_refl). symmetry. apply Zmod_unique with 2; lia. }
  destruct ((0 <=? r) && (r <? 2048)) eqn:E2.
  { assert (Q : 2 <= r / 64 < 32) by (split; [apply Z.div_le_lower_bound|apply Z.div_lt_upper_bound]; lia).
    cbn [app]. unfold decodeRune, utf8Lead, inRangeB. replace (192 + r / 64 <? 128) with false by lia.
    replace ((194 <=? 192 + r / 64) && (192 + r / 64 <=? 223)) with true by lia. cbn [Z.eqb Pos.eqb].
    replace ((128 <=? 128 + r mod 64) && (128 + r mod 64 <=? 191)) with true by lia. rewrite MM. f_equal.
    replace ((192 + r / 64) mod 32) with (r / 64) by (apply Zmod_unique with 6; lia). lia. }
  replace ((r <? 0) || (1114111 <? r) || ((55296 <=? r) && (r <=? 57343))) with false by lia.
  pose proof (Z_mod_lt (r / 64) 64 eq_refl) as B1. pose proof (Z_div_mod_eq_full (r / 64) 64) as D1.
  assert (E64 : r / 64 / 64 = r / 4096) by (rewrite Z.div_div by lia; reflexivity). rewrite E64 in D1.
  destruct (r <? 65536) eqn:E3.
  { assert (Q : 0 <= r / 4096 < 16) by (split; [apply Z.div_le_lower_bound|apply Z.div_lt_upper_bound]; lia).
    set (q := r / 4096) in *. set (b1 := (r / 64) mod 64) in *. set (b2 := r mod 64) in *.
    assert (P0 : q = 0 -> 32 <= b1) by lia. assert (P1 : q = 13 -> b1 < 32) by lia.
    cbn [app]. unfold decodeRune, utf8Lead, inRangeB.
    replace (224 + q <? 128) with false by lia. replace ((194 <=? 224 + q) && (224 + q <=? 223)) with false by lia.
    assert (V : forall lo hi, lo <= 128 + b1 <= hi -> (if (lo <=? 128 + b1) && (128 + b1 <=? hi) && ((128 <=? 128 + b2) && (128 + b2 <=? 191))
      then ((224 + q) mod 16 * 4096 + (128 + b1) mod 64 * 64 + (128 + b2) mod 64, 3) else (RuneError, 1)) = (r, 3)).
    { intros lo hi HB. replace ((lo <=? 128 + b1) && (128 + b1 <=? hi) && ((128 <=? 128 + b2) && (128 + b2 <=? 191))) with true by lia. f_equal.
      unfold b1, b2. rewrite !MM. fold b1. fold b2. replace ((224 + q) mod 16) with q by (apply Zmod_unique with 14; lia). lia. }
    destruct (224 + q =? 224) eqn:Q0; [cbn [Z.eqb Pos.eqb]; apply V; lia|].
    destruct ((225 <=? 224 + q) && (224 + q <=? 236)) eqn:Q1; [cbn [Z.eqb Pos.eqb]; apply V; lia|].
    destruct (224 + q =? 237) eqn:Q2; [cbn [Z.eqb Pos.eqb]; apply V; lia|].
    replace ((238 <=? 224 + q) && (224 + q <=? 239)) with true by lia. cbn [Z.eqb Pos.eqb]. apply V; lia. }
  pose proof (Z_mod_lt (r / 4096) 64 eq_refl) as B2. pose proof (Z_div_mod_eq_full (r / 4096) 64) as D2.
  assert (E65 : r / 4096 / 64 = r / 262144) by (rewrite Z.div_div by lia; reflexivity). rewrite E65 in D2.
  assert (Q : 0 <= r / 262144 < 5) by (split; [apply Z.div_le_lower_bound|apply Z.div_lt_upper_bound]; lia).
  set (q := r / 262144) in *. set (b1 := (r / 4096) mod 64) in *. set (b2 := (r / 64) mod 64) in *. set (b3 := r mod 64) in *.
  assert (P0 : q = 0 -> 16 <= b1) by lia. assert (P1 : q = 4 -> b1 < 16) by lia.
  cbn [app]. unfold decodeRune, utf8Lead, inRangeB.
  replace (240 + q <? 128) with false by lia. replace ((194 <=? 240 + q) && (240 + q <=? 223)) with false by lia.
  replace (240 + q =? 224) with false by lia. replace ((225 <=? 240 + q) && (240 + q <=? 236)) with false by lia.
  replace (240 + q =? 237) with false by lia. replace ((238 <=? 240 + q) && (240 + q <=? 239)) with false by lia.
  assert (V : forall lo hi, lo <= 128 + b1 <= hi ->
    (if (lo <=? 128 + b1) && (128 + b1 <=? hi) && ((128 <=? 128 + b2) && (128 + b2 <=? 191)) && ((128 <=? 128 + b3) && (128 + b3 <=? 191))
     then ((240 + q) mod 8 * 262144 + (128 + b1) mod 64 * 4096 + (128 + b2) mod 64 * 64 + (128 + b3) mod 64, 4) else (RuneError, 1)) = (r, 4)).
  { intros lo hi HB. replace ((lo <=? 128 + b1) && (128 + b1 <=? hi) && ((128 <=? 128 + b2) && (128 + b2 <=? 191)) && ((128 <=? 128 + b3) && (128 + b3 <=? 191))) with true by lia.
    f_equal. unfold b1, b2, b3. rewrite !MM. fold b1. fold b2. fold b3. replace ((240 + q) mod 8) with q by (apply Zmod_unique with 30; lia). lia. }
  destruct (240 + q =? 240) eqn:Q0; [cbn [Z.eqb Pos.eqb]; apply V; lia|].
  destruct ((241 <=? 240 + q) && (240 + q <=? 243)) eqn:Q1; [cbn [Z.eqb Pos.eqb]; apply V; lia|].
  replace (240 + q =? 244) with true by lia. cbn [Z.eqb Pos.eqb]. apply V; lia.
Qed.

(** The bytes of a rune beyond ASCII. *)
Lemma encode_high : forall r, scalar r -> 128 <= r -> exists b t, encodeRune r = b :: t /\ 128 <= b /\ Forall (fun c => 128 <= c) t /\ (1 <= length t <= 3)%nat.
Proof.
  intros r [H NS] L. unfold encodeRune, inRangeB. replace ((0 <=? r) && (r <? 128)) with false by lia.
  pose proof (Z_mod_lt r 64 eq_refl). pose proof (Z_mod_lt (r / 64) 64 eq_refl). pose proof (Z_mod_lt (r / 4096) 64 eq_refl).
  assert (0 <= r / 64) by (apply Z.div_le_lower_bound; lia). assert (0 <= r / 4096) by (apply Z.div_le_lower_bound; lia). assert (0 <= r / 262144) by (apply Z.div_le_lower_bound; lia).
  destruct ((0 <=? r) && (r <? 2048)); [|replace ((r <? 0) || (1114111 <? r) || ((55296 <=? r) && (r <=? 57343))) with false by lia; destruct (r <? 65536)];
    do 2 eexists; (split; [reflexivity|]); (split; [lia|]); (split; [repeat constructor; lia|simpl; lia]).
Qed.

Lemma good_rune : forall b t c w, 128 <= b -> decodeRune (b :: t) = (c, w) -> (c =? RuneError) && (w =? 1) = false -> runeAhead (b :: t).
Proof.
  intros b t c w HB E EQ.
    assert (W : w <> 0 /\ 0 <= c).
    { clear - E HB. unfold decodeRune in E. replace (b <? 128) with false in E by lia.
      assert (M : forall x y, 0 < y -> 0 <= x mod y) by (intros; apply Z_mod_lt; lia).
      repeat match type of E with
             | (match ?x with _ => _ end) = _ => destruct x
             end; inversion E; subst; try (unfold RuneError; lia);
        repeat match goal with |- context [?x mod ?y] => lazymatch goal with K : 0 <= x mod y |- _ => fail | _ => pose proof (M x y eq_refl) end end; lia. }
    destruct (decode_rune _ _ _ E) as [(u & EU & EW) K]; [|lia|].
    + intros [-> L]. assert (w = 1 \/ w <= 0) by lia. destruct H as [H|H]; [subst; discriminate EQ|].
      assert (0 <= w); [|lia]. clear - E. unfold decodeRune in E.
      repeat match type of E with (match ?x with _ => _ end) = _ => destruct x end; inversion E; lia.
    + exists c, u. destruct K as [K|[K1 K2]].
      * exfalso. unfold encodeRune in EU. replace ((0 <=? c) && (c <? 128)) with true in EU by lia. injection EU as -> _. lia.
      * split; [auto|]. split; [|auto]. destruct (Z_lt_ge_dec c 128); [|lia]. exfalso. destruct K1.
        unfold encodeRune in EU. replace ((0 <=? c) && (c <? 128)) with true in EU by lia. injection EU as -> _. lia.
Qed.

(** A byte beyond ASCII that starts no rune. *)
Lemma bad_rune : forall b t, 128 <= b -> (let '(c, w) := decodeRune (b :: t) in (c =? RuneError) && (w =? 1) = true) <-> ~ runeAhead (b :: t).
Proof.
  intros b t HB. split.
  - intros H (r & x & HS & HR & E). rewrite E, encode_rune in H by auto. destruct (encode_high r HS HR) as (b0 & t0 & EE & _ & _ & L).
    rewrite EE in H. unfold zlen in H. cbn [length] in H. apply andb_prop in H as [_ H]. apply Z.eqb_eq in H. lia.
  - intros H. destruct (decodeRune (b :: t)) as [c w] eqn:E. destruct ((c =? RuneError) && (w =? 1)) eqn:EQ; auto. exfalso. apply H. eapply good_rune; eauto.
Qed.
