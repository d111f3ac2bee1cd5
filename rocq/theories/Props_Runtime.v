(** Properties C41, C51: the runtime validators. *)
From Coq Require Import String.
From Verif Require Import Base Validators.
Open Scope list_scope.
Open Scope Z_scope.

(** ** The numbers floats stand for *)

(** A finite float is a whole number of units, a unit being the smallest positive
    number of the format. *)
Inductive ext : Type := MInf | Units (u : Z) | PInf.

Definition extLe (a b : ext) : Prop :=
  match a, b with
  | MInf, _ => True
  | _, PInf => True
  | Units x, Units y => x <= y
  | _, _ => False
  end.
Definition extLt (a b : ext) : Prop :=
  match a, b with
  | MInf, MInf => False
  | MInf, _ => True
  | PInf, _ => False
  | _, PInf => True
  | Units x, Units y => x < y
  | Units _, MInf => False
  end.

(** [FloatIs F b x]: the float with sign [s], exponent field [e] and fraction field [f]. *)
Inductive FloatIs (F : format754) : Z -> ext -> Prop :=
| Fl_subnormal : forall s f, s = 0 \/ s = 1 -> 0 <= f < 2 ^ fracBits F ->
    FloatIs F (s * 2 ^ (fracBits F + expBits F) + f) (Units ((1 - 2 * s) * f))
| Fl_normal : forall s e f, s = 0 \/ s = 1 -> 0 < e < 2 ^ expBits F - 1 -> 0 <= f < 2 ^ fracBits F ->
    FloatIs F (s * 2 ^ (fracBits F + expBits F) + e * 2 ^ fracBits F + f) (Units ((1 - 2 * s) * ((2 ^ fracBits F + f) * 2 ^ (e - 1))))
| Fl_inf : forall s, s = 0 \/ s = 1 ->
    FloatIs F (s * 2 ^ (fracBits F + expBits F) + (2 ^ expBits F - 1) * 2 ^ fracBits F) (if s =? 0 then PInf else MInf).

(** Not a number: all exponent bits set and a fraction. *)
Inductive FloatNaN (F : format754) : Z -> Prop :=
| Fl_nan : forall s f, s = 0 \/ s = 1 -> 0 < f < 2 ^ fracBits F ->
    FloatNaN F (s * 2 ^ (fracBits F + expBits F) + (2 ^ expBits F - 1) * 2 ^ fracBits F + f).

Definition goodFmt (F : format754) : Prop := 0 < fracBits F /\ 1 < expBits F.

(** The magnitude of a float in units; infinity continues the scale. *)
Definition scale (F : format754) (m : Z) : Z :=
  let e := m / 2 ^ fracBits F in let f := m mod 2 ^ fracBits F in
  if e =? 0 then f else (2 ^ fracBits F + f) * 2 ^ (e - 1).

Lemma pow_pos : forall n, 0 <= n -> 0 < 2 ^ n.
Proof. intros. apply Z.pow_pos_nonneg; lia. Qed.

Lemma scale_mono : forall F a b, goodFmt F -> 0 <= a < b -> scale F a < scale F b.
Proof.
  intros F a b [HF _] H. unfold scale. set (P := 2 ^ fracBits F). assert (HP : 0 < P) by (apply pow_pos; lia).
  pose proof (Z.div_mod a P ltac:(lia)) as Ea. pose proof (Z.div_mod b P ltac:(lia)) as Eb.
  pose proof (Z.mod_pos_bound a P HP) as Ba. pose proof (Z.mod_pos_bound b P HP) as Bb.
  set (ea := a / P) in *. set (eb := b / P) in *. set (fa := a mod P) in *. set (fb := b mod P) in *.
  assert (H0 : 0 <= ea) by (apply Z.div_pos; lia). assert (H1 : ea <= eb) by (apply Z.div_le_mono; lia).
  destruct (ea =? 0) eqn:E1, (eb =? 0) eqn:E2.
  - assert (ea = 0) by lia. assert (eb = 0) by lia. nia.
  - assert (0 < 2 ^ (eb - 1)) by (apply pow_pos; lia). nia.
  - lia.
  - assert (Q : 0 < 2 ^ (ea - 1)) by (apply pow_pos; lia). destruct (Z.eq_dec ea eb) as [EQ|NE].
    + rewrite <- EQ. assert (fa < fb) by nia. nia.
    + assert (QQ : 2 ^ ea <= 2 ^ (eb - 1)) by (apply Z.pow_le_mono_r; lia).
      replace (2 ^ ea) with (2 * 2 ^ (ea - 1)) in QQ by (rewrite <- Z.pow_succ_r by lia; f_equal; lia). nia.
Qed.

Lemma scale_iff : forall F a b, goodFmt F -> 0 <= a -> 0 <= b -> (scale F a < scale F b <-> a < b).
Proof.
  intros F a b G Ha Hb. split; intros H; [|apply scale_mono; auto; lia].
  destruct (Z.lt_trichotomy a b) as [K|[-> |K]]; auto; [lia|]. pose proof (scale_mono F b a G ltac:(lia)). lia.
Qed.

Lemma scale_nonneg : forall F a, goodFmt F -> 0 <= a -> 0 <= scale F a.
Proof.
  intros F a [G _] H. unfold scale. assert (0 < 2 ^ fracBits F) by (apply pow_pos; lia).
  pose proof (Z.mod_pos_bound a (2 ^ fracBits F) ltac:(lia)). assert (0 <= a / 2 ^ fracBits F) by (apply Z.div_pos; lia).
  destruct (_ =? 0) eqn:E; [lia|]. assert (0 < 2 ^ (a / 2 ^ fracBits F - 1)) by (apply pow_pos; lia). nia.
Qed.

(** Fields of a pattern. *)
Lemma fields : forall F s m, goodFmt F -> s = 0 \/ s = 1 -> 0 <= m < 2 ^ (fracBits F + expBits F) ->
  magnitude F (s * 2 ^ (fracBits F + expBits F) + m) = m /\
  (s * 2 ^ (fracBits F + expBits F) + m <? signBit F) = (s =? 0).
Proof.
  intros F s m G Hs Hm. unfold magnitude, signBit. split.
  - rewrite Z.add_comm, Z_mod_plus_full. apply Z.mod_small; auto.
  - destruct Hs as [-> | ->]; [apply Z.ltb_lt|apply Z.ltb_ge]; lia.
Qed.

(** A float that is a number: sign, magnitude, and the value it stands for. *)
Lemma floatIs_inv : forall F b x, goodFmt F -> FloatIs F b x -> exists s m, (s = 0 \/ s = 1) /\
  b = s * 2 ^ (fracBits F + expBits F) + m /\ 0 <= m <= infMag F /\ infMag F < 2 ^ (fracBits F + expBits F) /\
  ((m < infMag F /\ x = Units ((1 - 2 * s) * scale F m)) \/ (m = infMag F /\ x = if s =? 0 then PInf else MInf)).
Proof.
  intros F b x G H. unfold infMag. destruct G as [G1 G2].
  assert (HP : 0 < 2 ^ fracBits F) by (apply pow_pos; lia).
  assert (HE : 2 <= 2 ^ expBits F) by (change 2 with (2 ^ 1) at 1; apply Z.pow_le_mono_r; lia).
  assert (HS : 2 ^ (fracBits F + expBits F) = 2 ^ fracBits F * 2 ^ expBits F) by (apply Z.pow_add_r; lia).
  destruct H as [s f Hs Hf|s e f Hs He Hf|s Hs].
  - exists s, f. split; auto. split; auto. split; [nia|]. split; [nia|]. left. split; [nia|].
    unfold scale. rewrite (Z.div_small f), (Z.mod_small f) by lia. reflexivity.
  - exists s, (e * 2 ^ fracBits F + f). split; auto. split; [lia|]. split; [nia|]. split; [nia|]. left. split; [nia|].
    unfold scale. rewrite Z.div_add_l, (Z.div_small f), Z.add_0_r by lia.
    replace ((e * 2 ^ fracBits F + f) mod 2 ^ fracBits F) with f by (rewrite Z.add_comm, Z_mod_plus_full, Z.mod_small; lia).
    destruct (e =? 0) eqn:E; [lia|reflexivity].
  - exists s, ((2 ^ expBits F - 1) * 2 ^ fracBits F). split; auto. split; [lia|]. split; [nia|]. split; [nia|]. right. auto.
Qed.

Lemma floatIs_num : forall F b x, goodFmt F -> FloatIs F b x -> isNaN F b = false.
Proof.
  intros F b x G H. destruct (floatIs_inv _ _ _ G H) as (s & m & Hs & -> & Hm & HI & _). unfold isNaN.
  destruct (fields F s m G Hs ltac:(lia)) as [-> _]. apply Z.ltb_ge. lia.
Qed.

Lemma key_lt : forall F a b x y, goodFmt F -> FloatIs F a x -> FloatIs F b y -> (key F a < key F b <-> extLt x y).
Proof.
  intros F a b x y G HA HB.
  destruct (floatIs_inv _ _ _ G HA) as (s & m & Hs & -> & Hm & HI & HX), (floatIs_inv _ _ _ G HB) as (s' & m' & Hs' & -> & Hm' & _ & HY).
  unfold key. destruct (fields F s m G Hs ltac:(lia)) as [-> ->], (fields F s' m' G Hs' ltac:(lia)) as [-> ->].
  pose proof (scale_iff F m m' G ltac:(lia) ltac:(lia)) as S1. pose proof (scale_iff F m' m G ltac:(lia) ltac:(lia)) as S2.
  pose proof (scale_nonneg F m G ltac:(lia)). pose proof (scale_nonneg F m' G ltac:(lia)).
  assert (Z0 : scale F 0 = 0) by (unfold scale; rewrite Z.div_0_l, Z.mod_0_l by (destruct G; pose proof (pow_pos (fracBits F)); lia); reflexivity).
  pose proof (scale_iff F 0 m G ltac:(lia) ltac:(lia)) as S3. pose proof (scale_iff F 0 m' G ltac:(lia) ltac:(lia)) as S4. rewrite Z0 in S3, S4.
  assert (0 < infMag F).
  { unfold infMag. destruct G as [G1 G2]. pose proof (pow_pos (fracBits F) ltac:(lia)).
    assert (2 <= 2 ^ expBits F) by (change 2 with (2 ^ 1) at 1; apply Z.pow_le_mono_r; lia). nia. }
  destruct HX as [[HX1 ->]|[HX1 ->]], HY as [[HY1 ->]|[HY1 ->]], Hs as [-> | ->], Hs' as [-> | ->]; simpl Z.eqb; cbv iota; unfold extLt; try lia.
Qed.

Lemma key_le : forall F a b x y, goodFmt F -> FloatIs F a x -> FloatIs F b y -> (key F a <= key F b <-> extLe x y).
Proof.
  intros F a b x y G HA HB. pose proof (key_lt F b a y x G HB HA) as H.
  assert (K : key F a <= key F b <-> ~ key F b < key F a) by lia. rewrite K, H.
  destruct x, y; simpl; lia.
Qed.

Lemma floatNaN_iff : forall F b, goodFmt F -> FloatNaN F b -> isNaN F b = true.
Proof.
  intros F b G H. destruct H as [s f Hs Hf]. destruct G as [G1 G2].
  assert (HP : 0 < 2 ^ fracBits F) by (apply pow_pos; lia).
  assert (HE : 2 <= 2 ^ expBits F) by (change 2 with (2 ^ 1) at 1; apply Z.pow_le_mono_r; lia).
  assert (HS : 2 ^ (fracBits F + expBits F) = 2 ^ fracBits F * 2 ^ expBits F) by (apply Z.pow_add_r; lia).
  rewrite <- Z.add_assoc. unfold isNaN. destruct (fields F s ((2 ^ expBits F - 1) * 2 ^ fracBits F + f) (conj G1 G2) Hs ltac:(nia)) as [-> _].
  apply Z.ltb_lt. unfold infMag. lia.
Qed.

(** Every pattern is a number or not a number. *)
Lemma float_cases : forall F b, goodFmt F -> 0 <= b < 2 * 2 ^ (fracBits F + expBits F) -> FloatNaN F b \/ exists x, FloatIs F b x.
Proof.
  intros F b [G1 G2] Hb.
  assert (HP : 0 < 2 ^ fracBits F) by (apply pow_pos; lia).
  assert (HE : 2 <= 2 ^ expBits F) by (change 2 with (2 ^ 1) at 1; apply Z.pow_le_mono_r; lia).
  assert (HS : 2 ^ (fracBits F + expBits F) = 2 ^ fracBits F * 2 ^ expBits F) by (apply Z.pow_add_r; lia).
  assert (HD : exists s m, (s = 0 \/ s = 1) /\ b = s * 2 ^ (fracBits F + expBits F) + m /\ 0 <= m < 2 ^ (fracBits F + expBits F)).
  { destruct (Z_lt_dec b (2 ^ (fracBits F + expBits F))); [exists 0, b; lia|exists 1, (b - 2 ^ (fracBits F + expBits F)); lia]. }
  destruct HD as (s & m & Hs & -> & Hm).
  pose proof (Z.div_mod m (2 ^ fracBits F) ltac:(lia)) as E. pose proof (Z.mod_pos_bound m (2 ^ fracBits F) HP) as B.
  set (e := m / 2 ^ fracBits F) in *. set (f := m mod 2 ^ fracBits F) in *.
  assert (0 <= e < 2 ^ expBits F) by nia.
  destruct (Z.eq_dec e 0) as [E0|N0].
  { right. eexists. replace m with f by (rewrite E, E0; lia). apply Fl_subnormal; auto. }
  destruct (Z.eq_dec e (2 ^ expBits F - 1)) as [E1|N1].
  { destruct (Z.eq_dec f 0) as [F0|F0].
    - right. eexists. replace m with ((2 ^ expBits F - 1) * 2 ^ fracBits F) by (rewrite E, E1, F0; lia). apply Fl_inf; auto.
    - left. replace m with ((2 ^ expBits F - 1) * 2 ^ fracBits F + f) by (rewrite E, E1; lia). rewrite Z.add_assoc. apply Fl_nan; auto. lia. }
  right. eexists. replace m with (e * 2 ^ fracBits F + f) by (rewrite E; lia). rewrite Z.add_assoc. apply Fl_normal; auto. lia.
Qed.

(** ** C41 *)

(** Integers of any width. *)
Theorem C41_integers : forall v lo hi,
  (inInclusiveRange NInt v lo hi = true <-> lo <= v <= hi) /\
  (inExclusiveRange NInt v lo hi = true <-> lo < v < hi) /\
  (isLessThan NInt v hi = true <-> v < hi) /\ (isGreaterThan NInt v lo = true <-> lo < v).
Proof. intros v lo hi. unfold inInclusiveRange, inExclusiveRange, isLessThan, isGreaterThan, less, lessEq. lia. Qed.

(** Floats of any format, by the numbers they stand for. *)
Theorem C41_floats : forall F v lo hi x a b, goodFmt F -> FloatIs F v x -> FloatIs F lo a -> FloatIs F hi b ->
  (inInclusiveRange (NFloat F) v lo hi = true <-> extLe a x /\ extLe x b) /\
  (inExclusiveRange (NFloat F) v lo hi = true <-> extLt a x /\ extLt x b) /\
  (isLessThan (NFloat F) v hi = true <-> extLt x b) /\ (isGreaterThan (NFloat F) v lo = true <-> extLt a x).
Proof.
  intros F v lo hi x a b G HV HL HH. unfold inInclusiveRange, inExclusiveRange, isLessThan, isGreaterThan, less, lessEq, fltb, fleb.
  rewrite (floatIs_num _ _ _ G HV), (floatIs_num _ _ _ G HL), (floatIs_num _ _ _ G HH). cbn [negb andb].
  rewrite !andb_true_iff, !Z.ltb_lt, !Z.leb_le.
  rewrite (key_lt _ _ _ _ _ G HV HH), (key_lt _ _ _ _ _ G HL HV), (key_le _ _ _ _ _ G HL HV), (key_le _ _ _ _ _ G HV HH). tauto.
Qed.

(** A NaN operand makes every check false. *)
Theorem C41_nan : forall F v lo hi, goodFmt F -> 
  (FloatNaN F v \/ FloatNaN F lo \/ FloatNaN F hi -> inInclusiveRange (NFloat F) v lo hi = false /\ inExclusiveRange (NFloat F) v lo hi = false) /\
  (FloatNaN F v \/ FloatNaN F hi -> isLessThan (NFloat F) v hi = false /\ isGreaterThan (NFloat F) v hi = false).
Proof.
  intros F v lo hi G. unfold inInclusiveRange, inExclusiveRange, isLessThan, isGreaterThan, less, lessEq, fltb, fleb.
  split; intros H; repeat destruct H as [H|H]; rewrite (floatNaN_iff _ _ G H); cbn [negb]; rewrite ?andb_false_r; cbn [andb]; auto; destruct (isNaN F lo), (isNaN F v); auto.
Qed.

(** Consistency, for every numeric type and every bit pattern. *)
Theorem C41_consistent : forall T v lo hi,
  (inExclusiveRange T v lo hi = true -> inInclusiveRange T v lo hi = true) /\
  (inExclusiveRange T v lo hi = isGreaterThan T v lo && isLessThan T v hi) /\
  (isLessThan T v hi = true -> isGreaterThan T v hi = false) /\
  (isLessThan T v hi = true -> isGreaterThan T hi v = true).
Proof.
  intros T v lo hi. unfold inInclusiveRange, inExclusiveRange, isLessThan, isGreaterThan, less, lessEq, fltb, fleb.
  split; [|split; [reflexivity|split; [|auto]]].
  - destruct T; [lia|]. rewrite !andb_true_iff, !Z.ltb_lt, !Z.leb_le. intuition lia.
  - destruct T; [lia|]. rewrite !andb_true_iff, Z.ltb_lt. intros [[-> ->] H]. cbn [andb]. apply Z.ltb_ge. lia.
Qed.

(** 1.5 is in [1.0, 2.0] and -0 = 0; the largest float is below infinity. *)
Example C41_ex : goodFmt binary64 /\ goodFmt binary32 /\
  inInclusiveRange (NFloat binary64) 4609434218613702656 4607182418800017408 4611686018427387904 = true /\
  inInclusiveRange (NFloat binary64) 9223372036854775808 0 0 = true /\ inExclusiveRange (NFloat binary64) 9218868437227405311 0 9218868437227405312 = true /\
  FloatNaN binary64 9221120237041090560 /\ FloatIs binary64 4609434218613702656 (Units ((2 ^ 52 + 2 ^ 51) * 2 ^ 1022)).
Proof.
  unfold goodFmt. split; [simpl; lia|]. split; [simpl; lia|]. repeat (split; [vm_compute; reflexivity|]). split.
  - change 9221120237041090560 with (0 * 2 ^ (fracBits binary64 + expBits binary64) + (2 ^ expBits binary64 - 1) * 2 ^ fracBits binary64 + 2251799813685248).
    apply Fl_nan; [auto|]. simpl. lia.
  - change 4609434218613702656 with (0 * 2 ^ (fracBits binary64 + expBits binary64) + 1023 * 2 ^ fracBits binary64 + 2 ^ 51).
    change (Units ((2 ^ 52 + 2 ^ 51) * 2 ^ 1022)) with (Units ((1 - 2 * 0) * ((2 ^ fracBits binary64 + 2 ^ 51) * 2 ^ (1023 - 1)))).
    apply Fl_normal; [auto| |]; simpl; lia.
Qed.

(** Together the two theorems above cover every pattern. *)
Theorem C41_every_pattern : forall F b, goodFmt F -> 0 <= b < 2 * 2 ^ (fracBits F + expBits F) ->
  (FloatNaN F b /\ forall x, ~ FloatIs F b x) \/ (~ FloatNaN F b /\ exists x, FloatIs F b x).
Proof.
  intros F b G Hb. destruct (float_cases F b G Hb) as [H|(x & H)]; [left|right]; split; auto.
  - intros x K. pose proof (floatNaN_iff _ _ G H). pose proof (floatIs_num _ _ _ G K). congruence.
  - intros K. pose proof (floatNaN_iff _ _ G K). pose proof (floatIs_num _ _ _ G H). congruence.
  - eauto.
Qed.

(** ** C51 *)

Inductive SameType : goValue -> goValue -> Prop :=
| ST_uint : forall a b, SameType (GUint a) (GUint b)
| ST_int : forall a b, SameType (GInt a) (GInt b)
| ST_bool : forall a b, SameType (GBool a) (GBool b)
| ST_string : forall a b, SameType (GString a) (GString b)
| ST_slice : forall a b, SameType (GSlice a) (GSlice b).

(** The answer depends on the type only, and only a nil interface crashes. *)
Theorem C51_type_only : forall v w n, SameType v w -> checkSize v n = checkSize w n /\ exists b, checkSize v n = Ok b.
Proof. intros v w n H. destruct H; cbn; eauto. Qed.

Theorem C51_crash_iff : forall v n, checkSize v n = Panic <-> v = GNil.
Proof. intros v n. destruct v; cbn; split; congruence. Qed.

(** Every text passes a limit above 16 and none a smaller one, so the documented
    reading, that the value is shorter than the limit, fails in both directions. *)
Theorem C51_text : forall s n, checkSize (GString s) n = Ok (16 <? n).
Proof. reflexivity. Qed.

Theorem C51_content_refuted :
  (exists s n, checkSize (GString s) n = Ok true /\ ~ Z.of_nat (length s) < n) /\
  (exists s n, checkSize (GString s) n = Ok false /\ Z.of_nat (length s) < n).
Proof.
  split; [exists (repeat 97 100), 20|exists (@nil Z), 10]; split; try reflexivity; cbn [length repeat]; lia.
Qed.
