(** strconv reads exactly the numerals of StrconvSpec.v. *)
From Verif Require Import Base Strconv StrconvSpec.
Open Scope Z_scope.

Lemma lor32_big : forall c, 128 <= c -> 128 <= Z.lor c 32.
Proof.
  intros c H. assert (0 <= Z.ldiff 32 c) by (apply Z.ldiff_nonneg; lia).
  replace (Z.lor c 32) with (c + Z.ldiff 32 c); [lia|].
  rewrite Z.add_nocarry_lxor.
  - apply Z.bits_inj'. intros n Hn. rewrite Z.lxor_spec, Z.lor_spec, Z.ldiff_spec.
    destruct (Z.testbit c n), (Z.testbit 32 n); reflexivity.
  - apply Z.bits_inj'. intros n Hn. rewrite Z.land_spec, Z.ldiff_spec, Z.bits_0.
    destruct (Z.testbit c n), (Z.testbit 32 n); reflexivity.
Qed.

Lemma lor32_neg : forall c, c < 0 -> Z.lor c 32 < 0.
Proof. intros c H. apply Z.lor_neg. auto. Qed.

(** A statement about characters below 128 by enumeration. *)
Lemma ascii_cases : forall (f : Z -> bool), forallb f (map Z.of_nat (seq 0 128)) = true ->
  forall c, 0 <= c < 128 -> f c = true.
Proof.
  intros f H c Hc. rewrite forallb_forall in H. apply H. rewrite <- (Z2Nat.id c) by lia.
  apply in_map. apply in_seq. lia.
Qed.

Lemma lower_letter : forall c k, 97 <= k <= 122 -> lower c = k -> c = k \/ c = k - 32.
Proof.
  intros c k Hk H. unfold lower in H.
  assert (0 <= c < 128).
  { destruct (Z_lt_ge_dec c 0) as [L|L]; [apply lor32_neg in L; lia|].
    destruct (Z_lt_ge_dec c 128); [lia|]. assert (128 <= Z.lor c 32) by (apply lor32_big; lia). lia. }
  pose proof (ascii_cases (fun c => negb ((97 <=? Z.lor c 32) && (Z.lor c 32 <=? 122)) ||
    (c =? Z.lor c 32) || (c =? Z.lor c 32 - 32)) eq_refl c H0) as Q. cbn beta in Q.
  rewrite !orb_true_iff, negb_true_iff, andb_false_iff, !Z.eqb_eq, !Z.leb_gt in Q. lia.
Qed.

Lemma lower_upper : forall k, 65 <= k <= 90 -> lower k = k + 32.
Proof.
  intros k H. pose proof (ascii_cases (fun c => negb ((65 <=? c) && (c <=? 90)) || (Z.lor c 32 =? c + 32)) eq_refl k ltac:(lia)) as Q.
  cbn beta in Q. rewrite orb_true_iff, negb_true_iff, andb_false_iff, Z.eqb_eq, !Z.leb_gt in Q. unfold lower. lia.
Qed.

Lemma lower_lower : forall k, 97 <= k <= 122 -> lower k = k.
Proof.
  intros k H. pose proof (ascii_cases (fun c => negb ((97 <=? c) && (c <=? 122)) || (Z.lor c 32 =? c)) eq_refl k ltac:(lia)) as Q.
  cbn beta in Q. rewrite orb_true_iff, negb_true_iff, andb_false_iff, Z.eqb_eq, !Z.leb_gt in Q. unfold lower. lia.
Qed.

Lemma digitVal_iff : forall c d, digitVal c = Some d <-> Digit c d.
Proof.
  intros c d. unfold digitVal. split.
  - destruct (Z.leb_spec 48 c), (Z.leb_spec c 57); cbn [andb]; intros HH.
    1:{ inversion HH; subst. replace c with (48 + (c - 48)) at 1 by lia. constructor; lia. }
    all: destruct ((97 <=? lower c) && (lower c <=? 122)) eqn:E; [|discriminate].
    all: rewrite andb_true_iff, !Z.leb_le in E; injection HH as HH.
    all: destruct (lower_letter c (lower c) ltac:(lia) eq_refl) as [K|K];
      [replace c with (97 + (d - 10)) by lia; constructor; lia|replace c with (65 + (d - 10)) by lia; constructor; lia].
  - intros HH. inversion HH; subst.
    + destruct (Z.leb_spec 48 (48 + d)), (Z.leb_spec (48 + d) 57); cbn [andb]; try lia. f_equal; lia.
    + destruct (Z.leb_spec (97 + (d - 10)) 57); [lia|]. rewrite andb_false_r. rewrite lower_lower by lia.
      destruct (Z.leb_spec 97 (97 + (d - 10))), (Z.leb_spec (97 + (d - 10)) 122); cbn [andb]; try lia. f_equal; lia.
    + destruct (Z.leb_spec (65 + (d - 10)) 57); [lia|]. rewrite andb_false_r. rewrite lower_upper by lia.
      destruct (Z.leb_spec 97 (65 + (d - 10) + 32)), (Z.leb_spec (65 + (d - 10) + 32) 122); cbn [andb]; try lia. f_equal; lia.
Qed.

Lemma digit_pos : forall c d, Digit c d -> 0 <= d.
Proof. intros c d H. inversion H; lia. Qed.

Lemma digit_under : forall d, ~ Digit 95 d.
Proof. intros d H. remember 95 as c. destruct H; lia. Qed.

Lemma digit_fun : forall c d d', Digit c d -> Digit c d' -> d = d'.
Proof. intros c d d' H H'. rewrite <- digitVal_iff in H, H'. congruence. Qed.

Lemma value_ge : forall base, 2 <= base -> forall a s v, Value base a s v -> 0 <= a -> a <= v.
Proof.
  intros base HB a s v H. induction H; intros HA; try lia; auto.
  apply digit_pos in H. assert (a * 2 <= a * base) by nia. lia.
Qed.

Lemma has95 : forall s, existsb (Z.eqb 95) s = true <-> In 95 s.
Proof.
  intros s. rewrite existsb_exists. split.
  - intros (x & H & E). apply Z.eqb_eq in E. now subst.
  - intros H. exists 95. auto.
Qed.

Lemma parseLoop_spec : forall base s n u v u', 2 <= base <= 16 -> 0 <= n < two64 ->
  (parseLoop base (maxUint64 / base + 1) s n u = inr (v, u') <->
   Value base n s v /\ v < two64 /\ u' = u || existsb (Z.eqb 95) s).
Proof.
  intros base s. induction s as [|c s IH]; intros n u v u' HB HN; cbn [parseLoop existsb].
  - rewrite orb_false_r. split.
    + intros H. inversion H; subst. split; [constructor|]. split; [lia|auto].
    + intros (H & _ & ->). inversion H; subst. reflexivity.
  - destruct (Z.eqb_spec c 95) as [->|NE].
    + rewrite IH by auto. cbn [Z.eqb Pos.eqb]. rewrite orb_true_l, orb_true_r. split.
      * intros (H1 & H2 & H3). split; [now constructor|]. auto.
      * intros (H1 & H2 & H3). inversion H1; subst; auto. exfalso. eapply digit_under; eauto.
    + destruct (Z.eqb_spec 95 c) as [|_]; [congruence|]. rewrite orb_false_l.
      destruct (digitVal c) as [d|] eqn:ED.
      2:{ split; [discriminate|]. intros (H & _). inversion H; subst; [congruence|].
          match goal with HD : Digit _ _ |- _ => apply digitVal_iff in HD; congruence end. }
      apply digitVal_iff in ED. pose proof (digit_pos _ _ ED) as HD0.
      assert (HV : Value base n (c :: s) v <-> (d < base /\ Value base (n * base + d) s v)).
      { split.
        - intros H; inversion H; subst; [congruence|].
          match goal with HD : Digit c _ |- _ => pose proof (digit_fun _ _ _ HD ED); subst end. auto.
        - intros [H1 H2]. econstructor; eauto. }
      rewrite HV. clear HV.
      destruct (Z.leb_spec base d) as [L|L].
      { split; [discriminate|]. intros ([H _] & _). lia. }
      assert (HCut : maxUint64 / base + 1 <= n <-> maxUint64 < n * base).
      { assert (base * (maxUint64 / base) <= maxUint64) by (apply Z.mul_div_le; lia).
        assert (maxUint64 < base * (maxUint64 / base + 1)).
        { replace (maxUint64 / base + 1) with (Z.succ (maxUint64 / base)) by lia. apply Z.mul_succ_div_gt. lia. }
        split; intros; nia. }
      destruct (Z.leb_spec (maxUint64 / base + 1) n) as [G|G].
      { split; [discriminate|]. intros ([_ H] & H2 & _). apply value_ge in H; [|lia|nia].
        apply HCut in G. unfold maxUint64, two64 in *. lia. }
      assert (HM : 0 <= n * base < two64) by (unfold two64, maxUint64 in *; nia).
      cbv zeta. rewrite (Z.mod_small (n * base)) by auto.
      destruct (Z_lt_ge_dec (n * base + d) two64) as [K|K].
      * rewrite Z.mod_small by lia.
        destruct (Z.ltb_spec (n * base + d) (n * base)); [lia|].
        destruct (Z.ltb_spec maxUint64 (n * base + d)); [unfold maxUint64, two64 in *; lia|]. cbn [orb].
        rewrite IH by (auto; lia). tauto.
      * assert (EM : (n * base + d) mod two64 = n * base + d - two64).
        { rewrite <- (Z.mod_add _ (-1)) by (unfold two64; lia). apply Z.mod_small. unfold two64 in *. lia. }
        rewrite EM. destruct (Z.ltb_spec (n * base + d - two64) (n * base)); [|unfold two64 in *; lia]. cbn [orb].
        split; [discriminate|]. intros ([_ H1] & H2 & _). apply value_ge in H1; [|lia|lia]. lia.
Qed.

Lemma splitBase_prefixed : forall s base ds, s <> [] -> splitBase s = (base, ds) ->
  exists pre, Prefixed s base pre ds /\ 2 <= base <= 16.
Proof.
  intros s base ds HN H. unfold splitBase in H.
  destruct s as [|c0 s]; [congruence|].
  destruct (Z.eq_dec c0 48) as [->|NE].
  2:{ assert (E : (10, c0 :: s) = (base, ds)).
      { destruct c0 as [|p|p]; auto. do 6 (try (destruct p as [p|p|]; auto)); congruence. }
      inversion E; subst. exists []. split; [|lia]. constructor; auto. }
  destruct s as [|c s]; [inversion H; subst; exists [48]; split; [constructor|lia]|].
  destruct s as [|d s]; [inversion H; subst; exists [48]; split; [constructor|lia]|].
  destruct (Z.eqb_spec (lower c) 98) as [E|_].
  { inversion H; subst. exists [48; c]. split; [|lia]. apply lower_letter in E; [|lia]. constructor; [lia|discriminate]. }
  destruct (Z.eqb_spec (lower c) 111) as [E|_].
  { inversion H; subst. exists [48; c]. split; [|lia]. apply lower_letter in E; [|lia]. constructor; [lia|discriminate]. }
  destruct (Z.eqb_spec (lower c) 120) as [E|_].
  { inversion H; subst. exists [48; c]. split; [|lia]. apply lower_letter in E; [|lia]. constructor; [lia|discriminate]. }
  inversion H; subst. exists [48]. split; [constructor|lia].
Qed.

(** Two prefix readings that both have a value are the same. *)
Lemma lettersBig : forall c d, c = 98 \/ c = 66 \/ c = 111 \/ c = 79 \/ c = 120 \/ c = 88 -> Digit c d -> 10 <= d.
Proof. intros c d H HD. destruct HD; lia. Qed.

Lemma prefixed_value : forall s base pre ds v, Prefixed s base pre ds -> Value base 0 ds v ->
  splitBase s = (base, ds) /\ (pre = [] <-> base = 10).
Proof.
  intros s base pre ds v H HV. inversion H; subst; unfold splitBase.
  - destruct ds as [|d r]; [congruence|]. assert (lower c = 98) as ->; [|split; [reflexivity|split; discriminate]].
    destruct H0 as [-> | ->]; reflexivity.
  - destruct ds as [|d r]; [congruence|]. assert (lower c = 111) as ->; [|split; [reflexivity|split; discriminate]].
    destruct H0 as [-> | ->]; reflexivity.
  - destruct ds as [|d r]; [congruence|]. assert (lower c = 120) as ->; [|split; [reflexivity|split; discriminate]].
    destruct H0 as [-> | ->]; reflexivity.
  - split; [|split; discriminate]. destruct ds as [|c [|d r]]; auto.
    assert (HC : ~ (lower c = 98 \/ lower c = 111 \/ lower c = 120)).
    { intros HC. assert (HC' : c = 98 \/ c = 66 \/ c = 111 \/ c = 79 \/ c = 120 \/ c = 88).
      { destruct HC as [E|[E|E]]; apply lower_letter in E; lia. }
      inversion HV; subst; [lia|]. match goal with HD : Digit _ _ |- _ => apply lettersBig in HD; auto; lia end. }
    destruct (Z.eqb_spec (lower c) 98); [tauto|]. destruct (Z.eqb_spec (lower c) 111); [tauto|].
    destruct (Z.eqb_spec (lower c) 120); [tauto|]. reflexivity.
  - split; [|tauto]. destruct ds as [|c0 r]; [congruence|]. simpl in H1.
    destruct c0 as [|p|p]; auto. do 6 (try (destruct p as [p|p|]; auto)); congruence.
Qed.

(** Underscores. *)
Definition loopDigit (hex : bool) (c : Z) : bool :=
  ((48 <=? c) && (c <=? 57)) || (hex && (97 <=? lower c) && (lower c <=? 102)).

Definition underAfter (D : Z -> Prop) (first : Prop) (s : bytes) : Prop :=
  forall a b, s = a ++ 95 :: b ->
    (first /\ a = [] \/ exists a' c, a = a' ++ [c] /\ D c) /\ (exists c b', b = c :: b' /\ D c).

Lemma underscoreLoop_spec : forall hex (D : Z -> Prop), ~ D 95 -> (forall c, D c -> loopDigit hex c = true) ->
  forall s saw, saw = 94 \/ saw = 48 \/ saw = 95 -> Forall (fun c => c = 95 \/ D c) s ->
  (underscoreLoop hex s saw = true <->
   underAfter D (saw = 48) s /\ (saw = 95 -> exists c b', s = c :: b' /\ D c)).
Proof.
  intros hex D ND HD. induction s as [|c s IH]; intros saw HS HF; cbn [underscoreLoop].
  - rewrite negb_true_iff, Z.eqb_neq. split.
    + intros H. split; [|congruence]. intros [|x a] b E; discriminate.
    + intros [_ H] E. destruct (H E) as (c & b' & E2 & _). discriminate.
  - inversion HF as [|? ? HC HF']; subst. change (((48 <=? c) && (c <=? 57)) || (hex && (97 <=? lower c) && (lower c <=? 102)))
      with (loopDigit hex c). destruct HC as [-> |HC].
    + assert (EL : loopDigit hex 95 = false).
      { unfold loopDigit. destruct hex; reflexivity. }
      rewrite EL. cbn [Z.eqb Pos.eqb]. destruct (Z.eqb_spec saw 48) as [-> |NE].
      * rewrite IH by auto. split.
        -- intros [H1 H2]. destruct (H2 eq_refl) as (c & b' & -> & Dc). split; [|discriminate].
           intros a b E. destruct a as [|x a]; simpl in E.
           ++ inversion E; subst. split; [left; auto|eauto].
           ++ inversion E; subst. destruct (H1 a b H3) as [[[K _]|(a' & c' & -> & Dc')] H4]; [discriminate|].
              split; [right; exists (95 :: a'), c'; auto|auto].
        -- intros [H1 _]. destruct (H1 [] s eq_refl) as [_ (c & b' & -> & Dc)]. split; [|eauto].
           intros a b E. destruct (H1 (95 :: a) b) as [[[_ K]|(a' & c' & E2 & Dc')] H4]; [simpl; congruence|discriminate|].
           split; auto. right. destruct a' as [|x a']; simpl in E2.
           ++ inversion E2; subst. contradiction.
           ++ inversion E2; subst. eauto.
      * split; [discriminate|]. intros [H1 _].
        destruct (H1 [] s eq_refl) as [[[K _]|(a' & c' & E & _)] _]; [congruence|]. destruct a'; discriminate.
    + rewrite (HD _ HC). rewrite IH by auto. split.
      * intros [H1 _]. split; [|eauto]. intros a b E. destruct a as [|x a]; simpl in E.
        -- inversion E; subst. contradiction.
        -- inversion E; subst. destruct (H1 a b eq_refl) as [[[_ ->]|(a' & c' & -> & Dc')] H4].
           ++ split; auto. right. exists [], x. auto.
           ++ split; auto. right. exists (x :: a'), c'. auto.
      * intros [H1 _]. split; [|discriminate]. intros a b E. subst s.
        destruct (H1 (c :: a) b eq_refl) as [[[_ K]|(a' & c' & E2 & Dc')] H4]; [discriminate|]. split; auto.
        destruct a' as [|x a']; simpl in E2; inversion E2; subst; [left; auto|right; eauto].
Qed.

Lemma value_chars : forall base a s v, Value base a s v -> Forall (fun c => c = 95 \/ isDig base c) s.
Proof. intros base a s v H. induction H; constructor; auto. right. exists d. auto. Qed.

Lemma isDig_under : forall base, ~ isDig base 95.
Proof. intros base (d & H & _). eapply digit_under; eauto. Qed.

Lemma isDig_loop : forall base hex c, base <= 10 \/ (hex = true /\ base <= 16) -> isDig base c -> loopDigit hex c = true.
Proof.
  intros base hex c HB (d & HD & HL). unfold loopDigit. destruct HD as [d Hd|d Hd|d Hd].
  - destruct (Z.leb_spec 48 (48 + d)), (Z.leb_spec (48 + d) 57); try lia; reflexivity.
  - destruct HB as [HB|[-> HB]]; [lia|]. rewrite lower_lower by lia.
    destruct (Z.leb_spec 97 (97 + (d - 10))), (Z.leb_spec (97 + (d - 10)) 102); try lia; apply orb_true_r.
  - destruct HB as [HB|[-> HB]]; [lia|]. rewrite lower_upper by lia.
    destruct (Z.leb_spec 97 (65 + (d - 10) + 32)), (Z.leb_spec (65 + (d - 10) + 32) 102); try lia; apply orb_true_r.
Qed.

Lemma underAfter_eq : forall D (A B : Prop) s, (A <-> B) -> (underAfter D A s <-> underAfter D B s).
Proof. intros D A B s H. unfold underAfter. split; intros K a b E; specialize (K a b E); tauto. Qed.

Lemma not48 : forall c0 (A : Type) (x y : A), c0 <> 48 -> (match c0 with 48 => x | _ => y end) = y.
Proof. intros c0 A x y NE. destruct c0 as [|p|p]; auto. do 6 (try (destruct p as [p|p|]; auto)); congruence. Qed.

Lemma underscoreOK_spec : forall s base pre ds v, Prefixed s base pre ds -> Value base 0 ds v ->
  (underscoreOK s = true <-> underOk base pre ds).
Proof.
  intros s base pre ds v HP HV. pose proof (value_chars _ _ _ _ HV) as HC. unfold underOk.
  change (forall a b, ds = a ++ 95 :: b -> (pre <> [] /\ a = [] \/ exists a' c, a = a' ++ [c] /\ isDig base c) /\
    (exists c b', b = c :: b' /\ isDig base c)) with (underAfter (isDig base) (pre <> []) ds).
  assert (HS : forall hex saw, base <= 10 \/ (hex = true /\ base <= 16) -> saw = 48 \/ saw = 94 -> (saw = 48 <-> pre <> []) ->
    (underscoreLoop hex ds saw = true <-> underAfter (isDig base) (pre <> []) ds)).
  { intros hex saw HB HSaw HPre. rewrite (underscoreLoop_spec hex (isDig base)); auto using isDig_under.
    - rewrite (underAfter_eq _ _ _ _ HPre). intuition lia.
    - intros c. now apply isDig_loop.
    - tauto. }
  inversion HP; subst.
  - unfold underscoreOK. cbn [Z.eqb Pos.eqb orb]. assert (E : lower c = 98) by (destruct H as [-> | ->]; reflexivity).
    rewrite E. cbn [Z.eqb Pos.eqb orb]. apply HS; auto; [lia|]. split; auto; discriminate.
  - unfold underscoreOK. cbn [Z.eqb Pos.eqb orb]. assert (E : lower c = 111) by (destruct H as [-> | ->]; reflexivity).
    rewrite E. cbn [Z.eqb Pos.eqb orb]. apply HS; auto; [lia|]. split; auto; discriminate.
  - unfold underscoreOK. cbn [Z.eqb Pos.eqb orb]. assert (E : lower c = 120) by (destruct H as [-> | ->]; reflexivity).
    rewrite E. cbn [Z.eqb Pos.eqb orb]. apply HS; auto; [right; split; auto; lia|]. split; auto; discriminate.
  - unfold underscoreOK. cbn [Z.eqb Pos.eqb orb].
    assert (E : underscoreLoop false (48 :: ds) 94 = underscoreLoop false ds 48) by reflexivity.
    destruct ds as [|c r].
    + rewrite E. apply HS; auto; [lia|]. split; auto; discriminate.
    + assert (HN : (lower c =? 98) || (lower c =? 111) || (lower c =? 120) = false).
      { rewrite !orb_false_iff, !Z.eqb_neq. inversion HV; subst; [split; [split|]; discriminate|].
        repeat split; intros K; apply lower_letter in K; try lia;
          match goal with HD : Digit _ _ |- _ => apply lettersBig in HD; lia end. }
      rewrite HN, E. apply HS; auto; [lia|]. split; auto; discriminate.
  - unfold underscoreOK. destruct ds as [|c r]; [congruence|].
    assert (HC0 : (c =? 45) || (c =? 43) = false).
    { rewrite orb_false_iff, !Z.eqb_neq. inversion HC as [|? ? [->|(d & HD & _)] _]; subst; [lia|]. destruct HD; lia. }
    rewrite HC0. simpl in H0.
    match goal with |- (?x = true <-> _) => replace x with (underscoreLoop false (c :: r) 94) end.
    + apply HS; auto; [lia|]. split; [lia|congruence].
    + symmetry. apply not48 with (A := bool); auto.
Qed.

Theorem parseUint_iff : forall s v, parseUint s = inr v <-> Numeral s v /\ v < two64.
Proof.
  intros s v. unfold parseUint. destruct s as [|c s].
  - split; [discriminate|]. intros [(base & pre & ds & HP & _) _]. inversion HP; subst; congruence.
  - destruct (splitBase (c :: s)) as [base ds] eqn:ES.
    destruct (splitBase_prefixed (c :: s) base ds ltac:(discriminate) ES) as (pre & HP & HB). split.
    + destruct (parseLoop base (maxUint64 / base + 1) ds 0 false) as [e|[n under]] eqn:EL; [discriminate|].
      apply parseLoop_spec in EL; auto; [|unfold two64; lia]. destruct EL as (HV & HN & ->). cbn [orb].
      intros H. destruct (existsb (Z.eqb 95) ds) eqn:E95.
      * destruct (underscoreOK (c :: s)) eqn:EU; [|discriminate]. inversion H; subst. split; auto.
        exists base, pre, ds. split; auto. split; auto. eapply underscoreOK_spec; eauto.
      * inversion H; subst. split; auto. exists base, pre, ds. split; auto. split; auto.
        intros a b ->. exfalso. assert (In 95 (a ++ 95 :: b)) by (apply in_elt). apply has95 in H0. congruence.
    + intros [(base' & pre' & ds' & HP' & HV & HU) HL].
      destruct (prefixed_value _ _ _ _ _ HP' HV) as [E2 _]. rewrite ES in E2. inversion E2; subst base' ds'.
      destruct (parseLoop base (maxUint64 / base + 1) ds 0 false) as [e|[n under]] eqn:EL.
      * assert (HX : parseLoop base (maxUint64 / base + 1) ds 0 false = inr (v, false || existsb (Z.eqb 95) ds)).
        { apply parseLoop_spec; auto. unfold two64; lia. }
        congruence.
      * assert (HX : parseLoop base (maxUint64 / base + 1) ds 0 false = inr (v, false || existsb (Z.eqb 95) ds)).
        { apply parseLoop_spec; auto. unfold two64; lia. }
        rewrite EL in HX. inversion HX; subst.
        assert (underscoreOK (c :: s) = true) as -> by (eapply underscoreOK_spec; eauto).
        now rewrite andb_false_r.
Qed.

Lemma value_pos : forall s v, Numeral s v -> 0 <= v.
Proof.
  intros s v (base & pre & ds & HP & HV & _). eapply value_ge; [|eauto|lia]. inversion HP; lia.
Qed.

(** Without a sign. *)
Theorem parseInt_iff : forall s v, hd 0 s <> 43 -> hd 0 s <> 45 ->
  (parseInt s = inr v <-> Numeral s v /\ v < two63).
Proof.
  intros s v H1 H2. unfold parseInt. destruct s as [|c s].
  - split; [discriminate|]. intros [(base & pre & ds & HP & _) _]. inversion HP; subst; congruence.
  - simpl in H1, H2. destruct (Z.eqb_spec c 43); [congruence|]. destruct (Z.eqb_spec c 45); [congruence|]. cbn [orb].
    cbv zeta. destruct (parseUint (c :: s)) as [[|]|m] eqn:EP; cbn [negb andb].
    + split; [discriminate|]. intros [HN HL]. assert (parseUint (c :: s) = inr v); [|congruence].
      apply parseUint_iff. unfold two63, two64 in *. split; auto; lia.
    + replace (two63 <=? maxUint64) with true by reflexivity.
      split; [discriminate|]. intros [HN HL]. assert (parseUint (c :: s) = inr v); [|congruence].
      apply parseUint_iff. unfold two63, two64 in *. split; auto; lia.
    + assert (HM : Numeral (c :: s) m /\ m < two64) by (now apply parseUint_iff).
      destruct (Z.leb_spec two63 m).
      * split; [discriminate|]. intros [HN HL]. assert (parseUint (c :: s) = inr v); [|].
        { apply parseUint_iff. unfold two63, two64 in *. split; auto; lia. }
        assert (m = v) by congruence. lia.
      * split.
        -- intros HH. inversion HH; subst. tauto.
        -- intros [HN HL]. assert (parseUint (c :: s) = inr v); [|congruence].
           apply parseUint_iff. unfold two63, two64 in *. split; auto; lia.
Qed.

(** Decimal formatting. *)
Lemma digitsPos_value : forall fuel n acc, 0 <= n < 2 ^ Z.of_nat fuel -> (0 < fuel)%nat ->
  exists ds, digitsPos fuel n acc = ds ++ acc /\ ds <> [] /\ (forall a, exists k, 0 <= k /\ forall s v, Value 10 (a * k + n) s v -> Value 10 a (ds ++ s) v) /\
    Forall (fun c => 48 <= c <= 57) ds /\ (0 < n -> hd 0 ds <> 48).
Proof.
  induction fuel as [|fuel IH]; intros n acc HN HF; [lia|]. cbn [digitsPos].
  destruct (Z.ltb_spec n 10).
  - exists [48 + n]. split; [reflexivity|]. split; [discriminate|]. split.
    + intros a. exists 10. split; [lia|]. intros s v HV. simpl. apply V_digit with (d := n); auto. constructor; lia.
    + split; [constructor; [lia|constructor]|]. cbn [hd]; lia.
  - assert (HN2 : 0 <= n / 10 < 2 ^ Z.of_nat fuel).
    { split; [apply Z.div_pos; lia|]. apply Z.div_lt_upper_bound; [lia|].
      rewrite Nat2Z.inj_succ, Z.pow_succ_r in HN by lia. lia. }
    assert (HF2 : (0 < fuel)%nat). { destruct fuel; [|lia]. simpl in HN. lia. }
    destruct (IH (n / 10) ((48 + n mod 10) :: acc) HN2 HF2) as (ds & E & HNe & HV & HC & HH).
    exists (ds ++ [48 + n mod 10]). rewrite E, <- app_assoc. split; [reflexivity|].
    split; [destruct ds; discriminate|]. split; [|split].
    + intros a. destruct (HV a) as (k & Hk & HV'). exists (k * 10). split; [lia|]. intros s v H1. rewrite <- app_assoc. apply HV'.
      simpl. pose proof (Z.mod_pos_bound n 10). apply V_digit with (d := n mod 10); [constructor; lia|lia|].
      replace ((a * k + n / 10) * 10 + n mod 10) with (a * (k * 10) + n); auto.
      pose proof (Z.div_mod n 10). lia.
    + apply Forall_app. split; auto. constructor; [|constructor]. pose proof (Z.mod_pos_bound n 10). lia.
    + intros _. destruct ds as [|x ds]; [congruence|]. apply HH. assert (1 <= n / 10); [|lia].
      apply Z.div_le_lower_bound; lia.
Qed.

Lemma fmt_numeral : forall n, 0 <= n -> Numeral (fmtD n) n /\ Forall (fun c => 48 <= c <= 57) (fmtD n) /\ fmtD n <> [].
Proof.
  intros n HN. unfold fmtD. destruct (Z.ltb_spec n 0); [lia|].
  assert (HB : 0 <= n < 2 ^ Z.of_nat (S (Z.to_nat (Z.log2 n)))).
  { rewrite Nat2Z.inj_succ, Z2Nat.id by (apply Z.log2_nonneg).
    destruct (Z.eq_dec n 0) as [->|]; [simpl; lia|]. pose proof (Z.log2_spec n). lia. }
  destruct (digitsPos_value _ n [] HB ltac:(lia)) as (ds & E & HNe & HV & HC & HH).
  rewrite app_nil_r in E. rewrite E. split; auto.
  assert (HVal : Value 10 0 ds n).
  { destruct (HV 0) as (k & _ & HV'). specialize (HV' [] n). rewrite app_nil_r in HV'. apply HV'. simpl. constructor. }
  assert (HUn : forall base pre, underOk base pre ds).
  { intros base pre a b ->. exfalso. apply Forall_app in HC as [_ HC]. inversion HC; lia. }
  destruct (Z.eq_dec n 0) as [->|NZ].
  - unfold fmtD in E. simpl in E. subst ds. exists 8, [48], []. split; [constructor|]. split; [constructor|].
    intros [|x a] b E2; discriminate.
  - exists 10, [], ds. split; [constructor; auto; apply HH; lia|]. split; auto.
Qed.

Lemma digit_hd : forall s, Forall (fun c => 48 <= c <= 57) s -> hd 0 s <> 43 /\ hd 0 s <> 45.
Proof. intros s H. destruct s; simpl; [lia|]. inversion H; lia. Qed.

Theorem fmt_parseUint : forall n, 0 <= n < two64 -> parseUint (fmtD n) = inr n.
Proof. intros n H. apply parseUint_iff. split; [|lia]. apply fmt_numeral. lia. Qed.

Theorem fmt_parseInt : forall n, - two63 <= n < two63 -> parseInt (fmtD n) = inr n.
Proof.
  intros n H. destruct (Z_lt_ge_dec n 0) as [L|L].
  - assert (HU : parseUint (fmtD (- n)) = inr (- n)) by (apply fmt_parseUint; unfold two63, two64 in *; lia).
    assert (E : fmtD n = 45 :: fmtD (- n)).
    { unfold fmtD. destruct (Z.ltb_spec n 0); [|lia]. destruct (Z.ltb_spec (- n) 0); [lia|]. reflexivity. }
    rewrite E. unfold parseInt. cbn [Z.eqb Pos.eqb orb]. cbv zeta. rewrite HU. cbn [negb andb].
    destruct (Z.ltb_spec two63 (- n)); [lia|]. f_equal. lia.
  - destruct (fmt_numeral n ltac:(lia)) as (H1 & H2 & _). apply digit_hd in H2 as [H3 H4].
    apply parseInt_iff; auto. split; auto. lia.
Qed.
