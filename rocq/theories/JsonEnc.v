(** What the encoder writes. *)
From Coq Require Import String.
From Verif Require Import Base Utf8 Token Ast Cli Json JsonSpec Utf8Proofs JsonProofs.
Open Scope string_scope.
Open Scope list_scope.
Open Scope Z_scope.

(** Induction over documents. *)
Lemma json_rect2 : forall P : json -> Prop,
  P JNull -> (forall b, P (JBool b)) -> (forall t, P (JNum t)) -> (forall s, P (JStr s)) ->
  (forall l, Forall P l -> P (JArr l)) -> (forall m, Forall (fun a : bytes * json => P (snd a)) m -> P (JObj m)) -> forall v, P v.
Proof.
  intros P H1 H2 H3 H4 H5 H6. fix IH 1. intros [|b|t|s|l|m]; [exact H1|apply H2|apply H3|apply H4| |].
  - apply H5. induction l as [|a l IHl]; constructor; [apply IH|exact IHl].
  - apply H6. induction m as [|[k a] m IHm]; constructor; [apply IH|exact IHm].
Qed.

Lemma depth_nesting : forall v, depth v = nesting v.
Proof. reflexivity. Qed.

(** ** Strings *)

Lemma enc_keep : forall short x s, encFrom short (length x) true (x ++ s) = x ++ encFrom short 0 true s.
Proof.
  intros short x s. destruct x as [|b x]; [reflexivity|]. revert b. induction x as [|c x IH]; intros b; [reflexivity|].
  cbn [length app encFrom]. cbn [length app] in IH. now rewrite <- IH.
Qed.

Lemma enc_reset : forall short s k, encFrom short 0 k s = encFrom short 0 true s.
Proof. intros short [|b s] k; reflexivity. Qed.

Lemma enc_drop : forall short x s, encFrom short (length x) false (x ++ s) = encFrom short 0 true s.
Proof. intros short x s. induction x as [|b x IH]; [apply enc_reset|]. cbn [length app encFrom]. exact IH. Qed.

Lemma hexDigit_in : forall n, 0 <= n < 16 -> In (hexDigit n, n) hexTable.
Proof.
  intros n H. assert (C : In n [0; 1; 2; 3; 4; 5; 6; 7; 8; 9; 10; 11; 12; 13; 14; 15]) by (simpl; lia).
  simpl in C. repeat (destruct C as [<-|C]; [vm_compute; tauto|]). contradiction.
Qed.

Lemma esc_chars : forall short b t v, 0 <= b < 128 -> Chars t v -> Chars (escAscii short b ++ t) (b :: v).
Proof.
  intros short b t v HB HC. unfold escAscii.
  destruct (b =? 34) eqn:E1; [replace b with 34 by lia; apply cs_short; simpl; auto|].
  destruct (b =? 92) eqn:E2; [replace b with 92 by lia; apply cs_short; simpl; auto|].
  destruct (b =? 10) eqn:E3; [replace b with 10 by lia; apply cs_short; simpl; tauto|].
  destruct (b =? 13) eqn:E4; [replace b with 13 by lia; apply cs_short; simpl; tauto|].
  destruct (b =? 9) eqn:E5; [replace b with 9 by lia; apply cs_short; simpl; tauto|].
  destruct (short && (b =? 8)) eqn:E6; [replace b with 8 by lia; apply cs_short; simpl; tauto|].
  destruct (short && (b =? 12)) eqn:E7; [replace b with 12 by lia; apply cs_short; simpl; tauto|].
  destruct ((b <? 32) || (b =? 60) || (b =? 62) || (b =? 38)) eqn:E8.
  - pose proof (Z.mod_pos_bound b 16 eq_refl). pose proof (Z.div_mod b 16 ltac:(lia)).
    assert (H4 : Hex4 [48; 48; hexDigit (b / 16); hexDigit (b mod 16)] (0 * 4096 + 0 * 256 + b / 16 * 16 + b mod 16)).
    { constructor; [vm_compute; tauto|vm_compute; tauto|apply hexDigit_in; lia|apply hexDigit_in; lia]. }
    replace (0 * 4096 + 0 * 256 + b / 16 * 16 + b mod 16) with b in H4 by lia.
    change ((str "\u00" ++ [hexDigit (b / 16); hexDigit (b mod 16)]) ++ t) with (92 :: 117 :: [48; 48; hexDigit (b / 16); hexDigit (b mod 16)] ++ t).
    replace (b :: v) with (encodeRune b ++ v).
    + apply cs_hex; auto. lia.
    + unfold encodeRune, inRangeB. replace ((0 <=? b) && (b <? 128)) with true by lia. reflexivity.
  - apply cs_ascii; auto; lia.
Qed.

Lemma enc_chars : forall short s s', Repair s s' -> Chars (encFrom short 0 true s) s'.
Proof.
  intros short s s' H. induction H as [|b s t HB HR IH|r s t HS HL HR IH|b s t HB HN HR IH].
  - constructor.
  - cbn [encFrom]. replace (b <? 128) with true by lia. now apply esc_chars.
  - destruct (encode_high r HS HL) as (b & x & EE & HB & HX & L). pose proof (encode_rune r s HS) as ED. rewrite EE in *. cbn [app] in *.
    cbn [encFrom]. replace (b <? 128) with false by lia. rewrite ED. unfold zlen. cbn [length].
    replace (Z.of_nat (S (length x)) =? 1) with false by (symmetry; apply Z.eqb_neq; lia). rewrite andb_false_r.
    replace (Z.to_nat (Z.of_nat (S (length x)) - 1)) with (length x) by lia. destruct ((r =? 8232) || (r =? 8233)) eqn:EL.
    + rewrite enc_drop. assert (H4 : Hex4 [50; 48; 50; hexDigit (r mod 16)] r).
      { apply orb_prop in EL as [EL|EL]; apply Z.eqb_eq in EL; subst r; [change 8232 with (2 * 4096 + 0 * 256 + 2 * 16 + 8) at 2|change 8233 with (2 * 4096 + 0 * 256 + 2 * 16 + 9) at 2];
          constructor; vm_compute; tauto. }
      change (str "\u202" ++ [hexDigit (r mod 16)] ++ encFrom short 0 true s) with (92 :: 117 :: [50; 48; 50; hexDigit (r mod 16)] ++ encFrom short 0 true s).
      change (b :: x ++ t) with ((b :: x) ++ t). rewrite <- EE. apply cs_hex; auto. destruct HS. lia.
    + rewrite enc_keep. change (b :: x ++ t) with ((b :: x) ++ t). change (b :: x ++ encFrom short 0 true s) with ((b :: x) ++ encFrom short 0 true s). rewrite <- EE. now apply cs_rune.
  - cbn [encFrom]. replace (b <? 128) with false by lia. apply bad_rune in HN; auto. destruct (decodeRune (b :: s)) as [c w]. rewrite HN.
    change (str "\u" ++ str "fffd" ++ encFrom short 0 true s) with (92 :: 117 :: [102; 102; 102; 100] ++ encFrom short 0 true s).
    apply cs_hex; auto; [|lia]. change 65533 with (15 * 4096 + 15 * 256 + 15 * 16 + 13). constructor; vm_compute; tauto.
Qed.

Lemma rune_dec : forall b s, 128 <= b -> runeAhead (b :: s) \/ ~ runeAhead (b :: s).
Proof.
  intros b s H. destruct (decodeRune (b :: s)) as [c w] eqn:E. destruct ((c =? RuneError) && (w =? 1)) eqn:EQ; [right|left; eapply good_rune; eauto].
  apply bad_rune; auto. now rewrite E.
Qed.

Lemma repair_total : forall n s, (length s <= n)%nat -> Forall (fun b => 0 <= b < 256) s -> exists s', Repair s s'.
Proof.
  induction n as [|n IH]; intros s L HF; (destruct s as [|b s]; [exists []; constructor|]); [simpl in L; lia|]. inversion HF; subst. simpl in L.
  destruct (Z.lt_ge_cases b 128) as [HB|HB].
  - destruct (IH s) as (s' & HR); auto; [lia|]. exists (b :: s'). constructor; auto. lia.
  - destruct (rune_dec b s HB) as [(r & x & HS & HR & E)|HN].
    + destruct (encode_high r HS HR) as (b0 & t0 & EE & _ & _ & L0). rewrite E. rewrite EE in E. cbn [app] in E. injection E as -> ->.
      rewrite app_length in L. apply Forall_app in H2 as [_ H2]. destruct (IH x) as (s' & HR'); auto; [lia|]. exists (encodeRune r ++ s'). now constructor.
    + destruct (IH s) as (s' & HR); auto; [lia|]. exists (encodeRune 65533 ++ s'). now constructor.
Qed.

Lemma repair_id : forall s, Utf8Text s -> Repair s s.
Proof. intros s H. induction H; constructor; auto. Qed.

Lemma repair_utf8 : forall s t, Repair s t -> Utf8Text t.
Proof.
  intros s t H. induction H; try (constructor; auto; fail). apply ut_rune; auto; unfold scalar; lia.
Qed.

Lemma rune_split : forall r s r' s', scalar r -> scalar r' -> encodeRune r ++ s = encodeRune r' ++ s' -> r = r' /\ s = s'.
Proof.
  intros r s r' s' H H' E. pose proof (encode_rune r s H) as D. rewrite E, (encode_rune r' s' H') in D. injection D as -> _. split; auto.
  now apply app_inv_head in E.
Qed.

Lemma repair_func : forall s t, Repair s t -> forall t', Repair s t' -> t = t'.
Proof.
  intros s t H. induction H as [|b s t HB HR IH|r s t HS HL HR IH|b s t HB HN HR IH]; intros t' H'.
  - inversion H'; subst; auto. destruct (encode_high r) as (b & x & EE & _); auto. rewrite EE in *. discriminate.
  - inversion H' as [|b0 s0 t0 HB0 HR0|r s0 t0 HS HL HR0 E|b0 s0 t0 HB0 HN0 HR0]; subst; [f_equal; auto| |lia].
    destruct (encode_high r HS HL) as (b1 & x & EE & HB1 & _). rewrite EE in E. cbn [app] in E. injection E as -> E. lia.
  - inversion H' as [E|b0 s0 t0 HB0 HR0 E|r0 s0 t0 HS0 HL0 HR0 E|b0 s0 t0 HB0 HN0 HR0 E]; subst.
    + destruct (encode_high r HS HL) as (b1 & x & EE & HB1 & _). rewrite EE in E. discriminate.
    + destruct (encode_high r HS HL) as (b1 & x & EE & HB1 & _). rewrite EE in E. cbn [app] in E. injection E as -> E. lia.
    + apply rune_split in E as [-> ->]; auto. f_equal. auto.
    + exfalso. apply HN0. exists r, s. rewrite E. auto.
  - inversion H' as [|b0 s0 t0 HB0 HR0|r0 s0 t0 HS0 HL0 HR0 E|b0 s0 t0 HB0 HN0 HR0]; subst; [lia| |f_equal; auto].
    exfalso. apply HN. exists r0, s0. auto.
Qed.

(** ** Layout *)

Fixpoint sep (x : bytes) (l : list bytes) : bytes :=
  match l with
  | [] => []
  | [a] => a
  | a :: r => a ++ x ++ sep x r
  end.

(** The indented form of a document at depth [d]. *)
Fixpoint pretty (short : bool) (d : nat) (v : json) : bytes :=
  match v with
  | JArr [] => [91; 93]
  | JArr l => 91 :: newline (S d) ++ sep (44 :: newline (S d)) (map (pretty short (S d)) l) ++ newline d ++ [93]
  | JObj [] => [123; 125]
  | JObj m => 123 :: newline (S d) ++ sep (44 :: newline (S d)) (map (fun kv => match kv with (k, v) => encStr short k ++ 58 :: 32 :: pretty short (S d) v end) m)
              ++ newline d ++ [125]
  | v => compact short v
  end.

Lemma indent_plain : forall x d rest, Forall (fun b => b <> 34 /\ b <> 92) x -> indentFrom true false false d (x ++ rest) = x ++ indentFrom true false false d rest.
Proof.
  induction x as [|b x IH]; intros d rest H; [reflexivity|]. inversion H as [|? ? [H1 H2] H3]; subst. cbn [app indentFrom].
  replace (b =? 92) with false by lia. replace (b =? 34) with false by lia. now rewrite IH.
Qed.

Lemma hex_plain : forall h u, Hex4 h u -> Forall (fun b => b <> 34 /\ b <> 92) h.
Proof.
  intros h u H. destruct H. assert (K : forall a x, In (a, x) hexTable -> a <> 34 /\ a <> 92).
  { clear. intros a x H. simpl in H. repeat (destruct H as [H|H]; [inversion H; subst; split; discriminate|]). contradiction. }
  repeat constructor; eapply K; eauto.
Qed.

Lemma high_plain : forall r, scalar r -> 128 <= r -> Forall (fun b => b <> 34 /\ b <> 92) (encodeRune r).
Proof.
  intros r HS HR. destruct (encode_high r HS HR) as (b & t & -> & HB & HT & _). constructor; [lia|]. eapply Forall_impl; [|exact HT]. simpl. intros; lia.
Qed.

Lemma indent_string : forall t v, Chars t v -> forall d rest,
  indentFrom true false false d (t ++ 34 :: rest) = t ++ 34 :: indentFrom false false false d rest.
Proof.
  intros t v H. induction H; intros d0 rest.
  - reflexivity.
  - cbn [app indentFrom]. replace (b =? 92) with false by lia. replace (b =? 34) with false by lia. now rewrite IHChars.
  - rewrite <- !app_assoc, indent_plain by (now apply high_plain). now rewrite IHChars.
  - cbn [app indentFrom]. cbn [Z.eqb Pos.eqb]. now rewrite IHChars.
  - cbn [app indentFrom]. cbn [Z.eqb Pos.eqb]. rewrite <- !app_assoc, indent_plain by (eapply hex_plain; eauto). now rewrite IHChars.
  - cbn [app]. rewrite <- !app_assoc. cbn [app indentFrom]. cbn [Z.eqb Pos.eqb]. rewrite indent_plain by (eapply hex_plain; eauto). cbn [app indentFrom]. cbn [Z.eqb Pos.eqb].
    rewrite <- !app_assoc, indent_plain by (eapply hex_plain; eauto). now rewrite IHChars.
  - cbn [app indentFrom]. cbn [Z.eqb Pos.eqb]. rewrite <- !app_assoc, indent_plain by (eapply hex_plain; eauto). now rewrite IHChars.
  - cbn [app indentFrom]. replace (b =? 92) with false by lia. replace (b =? 34) with false by lia. now rewrite IHChars.
Qed.

Lemma indent_encStr : forall short s d rest, Forall (fun b => 0 <= b < 256) s ->
  indentFrom false false false d (encStr short s ++ rest) = encStr short s ++ indentFrom false false false d rest.
Proof.
  intros short s d rest H. unfold encStr. cbn [app indentFrom]. cbn [Z.eqb Pos.eqb orb]. cbn [app]. rewrite <- !app_assoc. cbn [app].
  destruct (repair_total (length s) s) as (s' & HR); auto. now rewrite (indent_string _ _ (enc_chars short _ _ HR)).
Qed.

Definition inert (b : Z) : Prop := ~ In b [34; 44; 58; 91; 93; 123; 125].

Lemma indent_inert : forall x d rest, Forall inert x -> indentFrom false false false d (x ++ rest) = x ++ indentFrom false false false d rest.
Proof.
  induction x as [|b x IH]; intros d rest H; [reflexivity|]. inversion H as [|? ? H1 H2]; subst. unfold inert in H1. simpl in H1. cbn [app indentFrom].
  replace ((b =? 125) || (b =? 93)) with false by lia. replace ((b =? 123) || (b =? 91)) with false by lia. replace (b =? 44) with false by lia.
  replace (b =? 58) with false by lia. replace (b =? 34) with false by lia. cbn [app]. now rewrite IH.
Qed.

Lemma digits_inert : forall x, digits x -> Forall inert x.
Proof. intros x H. eapply Forall_impl; [|exact H]. unfold inert. simpl. intros; lia. Qed.

Lemma number_inert : forall t, NumberText t -> Forall inert t.
Proof.
  intros t (sg & i & f & e & -> & HS & HI & HF & HE). rewrite !Forall_app. repeat split.
  - destruct HS as [-> | ->]; repeat constructor; unfold inert; simpl; lia.
  - destruct HI as [-> |(d & r & -> & HD & HR)]; constructor; try constructor; unfold inert; simpl; try lia. now apply digits_inert.
  - destruct HF as [-> |(ds & -> & _ & HD)]; constructor; unfold inert; simpl; try lia. now apply digits_inert.
  - destruct HE as [-> |(b & sg' & ds & -> & HB & HS' & _ & HD)]; constructor; [unfold inert; simpl in *; lia|]. apply Forall_app. split; [|now apply digits_inert].
    simpl in HS'. destruct HS' as [<-|[<-|[<-|[]]]]; repeat constructor; unfold inert; simpl; lia.
Qed.

Lemma indent_need : forall c r d, c <> 125 -> c <> 93 -> indentFrom false false true d (c :: r) = newline (S d) ++ indentFrom false false false (S d) (c :: r).
Proof.
  intros c r d H1 H2. cbn [indentFrom]. replace ((c =? 125) || (c =? 93)) with false by lia. reflexivity.
Qed.

Lemma compact_first : forall short v, Writable v -> exists c r, compact short v = c :: r /\ c <> 125 /\ c <> 93.
Proof.
  intros short v H. destruct H as [|b|t HT|s HS|l HL|m HM]; cbn [compact]; try destruct b; try (do 2 eexists; split; [reflexivity|split; discriminate]).
  destruct (value_first t (JNum t)) as (c & r & -> & HC); [now constructor|]. exists c, r. simpl in HC. repeat split; lia.
Qed.

Lemma indent_compact : forall short v, Writable v -> forall d rest,
  indentFrom false false false d (compact short v ++ rest) = pretty short d v ++ indentFrom false false false d rest.
Proof.
  intros short. induction v using json_rect2; intros W d rest.
  - reflexivity.
  - destruct b; reflexivity.
  - cbn [pretty compact]. inversion W; subst. apply indent_inert. now apply number_inert.
  - cbn [pretty compact]. inversion W; subst. now apply indent_encStr.
  - inversion W as [| | | |l0 WL|]; subst. destruct l as [|a l]; [reflexivity|].
    assert (G : forall l, l <> [] -> Forall Writable l -> Forall (fun v => Writable v -> forall d rest, indentFrom false false false d (compact short v ++ rest) = pretty short d v ++ indentFrom false false false d rest) l ->
      forall d rest, indentFrom false false false (S d) (commas (map (compact short) l) ++ 93 :: rest)
        = sep (44 :: newline (S d)) (map (pretty short (S d)) l) ++ newline d ++ 93 :: indentFrom false false false d rest).
    { clear. induction l as [|a l IH]; intros NE WL H d rest; [congruence|]. inversion WL; subst. inversion H; subst. destruct l as [|b l].
      - cbn [map commas sep]. rewrite H4 by auto. f_equal.
      - cbn [map commas sep] in *. rewrite <- !app_assoc. rewrite H4 by auto. f_equal. rewrite <- app_comm_cons. cbn [indentFrom]. cbn [Z.eqb Pos.eqb orb]. cbn [app].
        f_equal. f_equal. apply IH; auto. discriminate. }
    cbn [compact]. cbn [app]. change (pretty short d (JArr (a :: l))) with (91 :: newline (S d) ++ sep (44 :: newline (S d)) (map (pretty short (S d)) (a :: l)) ++ newline d ++ [93]).
    cbn [indentFrom]. cbn [Z.eqb Pos.eqb orb]. cbn [app]. f_equal. rewrite <- !app_assoc. cbn [app].
    specialize (G (a :: l) ltac:(discriminate) WL H d rest). inversion WL; subst. destruct (compact_first short a) as (c & r & EC & C1 & C2); auto.
    assert (EE : exists r', commas (map (compact short) (a :: l)) ++ 93 :: rest = c :: r') by (cbn [map commas]; destruct (map (compact short) l); rewrite EC; cbn [app]; eauto).
    destruct EE as (r' & EE). rewrite EE in *. rewrite indent_need by auto. f_equal. exact G.
  - inversion W as [| | | | |m0 WL]; subst. destruct m as [|a m]; [reflexivity|].
    set (fc := fun kv : bytes * json => match kv with (k, v) => encStr short k ++ 58 :: compact short v end).
    set (fp := fun d (kv : bytes * json) => match kv with (k, v) => encStr short k ++ 58 :: 32 :: pretty short d v end).
    assert (G1 : forall a d rest, Forall (fun b => 0 <= b < 256) (fst a) -> Writable (snd a) ->
        (Writable (snd a) -> forall d rest, indentFrom false false false d (compact short (snd a) ++ rest) = pretty short d (snd a) ++ indentFrom false false false d rest) ->
        indentFrom false false false d (fc a ++ rest) = fp d a ++ indentFrom false false false d rest).
    { clear. intros [k v] d rest HK HV IH. unfold fc, fp. cbn [fst snd] in *. rewrite <- !app_assoc. rewrite indent_encStr by auto. f_equal. cbn [app indentFrom]. cbn [Z.eqb Pos.eqb orb]. cbn [app].
      do 2 f_equal. now apply IH. }
    assert (G : forall l, l <> [] -> Forall (fun a => Forall (fun b => 0 <= b < 256) (fst a) /\ Writable (snd a)) l ->
      Forall (fun a : bytes * json => Writable (snd a) -> forall d rest, indentFrom false false false d (compact short (snd a) ++ rest) = pretty short d (snd a) ++ indentFrom false false false d rest) l ->
      forall d rest, indentFrom false false false (S d) (commas (map fc l) ++ 125 :: rest)
        = sep (44 :: newline (S d)) (map (fp (S d)) l) ++ newline d ++ 125 :: indentFrom false false false d rest).
    { clear - G1. induction l as [|a l IH]; intros NE WL H d rest; [congruence|]. inversion WL as [|? ? [W1 W2] W3]; subst. inversion H; subst. destruct l as [|b l].
      - cbn [map commas sep]. rewrite G1 by auto. f_equal.
      - cbn [map commas sep] in *. rewrite <- !app_assoc. rewrite G1 by auto. f_equal. rewrite <- app_comm_cons. cbn [indentFrom]. cbn [Z.eqb Pos.eqb orb]. cbn [app].
        f_equal. f_equal. apply IH; auto. discriminate. }
    cbn [compact]. fold fc. cbn [app]. change (pretty short d (JObj (a :: m))) with (123 :: newline (S d) ++ sep (44 :: newline (S d)) (map (fp (S d)) (a :: m)) ++ newline d ++ [125]).
    cbn [indentFrom]. cbn [Z.eqb Pos.eqb orb]. cbn [app]. f_equal. rewrite <- !app_assoc. cbn [app].
    specialize (G (a :: m) ltac:(discriminate) WL H d rest).
    assert (EE : exists r', commas (map fc (a :: m)) ++ 125 :: rest = 34 :: r').
    { destruct a as [k v]. assert (EF : exists r, fc (k, v) = 34 :: r) by (unfold fc, encStr; cbn [app]; eauto). destruct EF as (r & EF).
      cbn [map commas]. destruct (map fc m); rewrite EF; cbn [app]; eauto. }
    destruct EE as (r' & EE). rewrite EE in *. rewrite indent_need by discriminate. f_equal. exact G.
Qed.

Lemma indent_pretty : forall short v, Writable v -> indent (compact short v) = pretty short 0 v.
Proof.
  intros short v H. unfold indent. rewrite <- (app_nil_r (compact short v)), indent_compact by auto. cbn [indentFrom]. apply app_nil_r.
Qed.

Lemma newline_blanks : forall d, blanks (newline d).
Proof. intros d. constructor; [simpl; auto|]. apply Forall_forall. intros x H. apply repeat_spec in H. subst. simpl. auto. Qed.

Lemma pretty_value : forall short v, Writable v -> forall d, exists v', Repaired v v' /\ Value (pretty short d v) v'.
Proof.
  intros short. induction v using json_rect2; intros W d.
  - exists JNull. repeat constructor.
  - exists (JBool b). destruct b; repeat constructor.
  - exists (JNum t). inversion W; subst. repeat constructor; auto.
  - inversion W; subst. destruct (repair_total (length s) s) as (s' & HR); auto. exists (JStr s'). split; [now constructor|].
    cbn [pretty compact]. unfold encStr. constructor. now apply enc_chars.
  - inversion W as [| | | |l0 WL|]; subst. destruct l as [|a l]; [exists (JArr []); split; [repeat constructor|apply (v_arr0 []); constructor]|].
    assert (G : forall l, l <> [] -> Forall Writable l -> Forall (fun v => Writable v -> forall d, exists v', Repaired v v' /\ Value (pretty short d v) v') l ->
      forall b, blanks b -> exists l', Forall2 Repaired l l' /\ Elems (b ++ sep (44 :: newline (S d)) (map (pretty short (S d)) l) ++ newline d) l').
    { clear. induction l as [|a l IH]; intros NE WL H b HB; [congruence|]. inversion WL; subst. inversion H; subst. destruct (H4 H2 (S d)) as (a' & RA & VA). destruct l as [|c l].
      - exists [a']. split; [repeat constructor; auto|]. cbn [map sep]. apply e_one; auto using newline_blanks.
      - destruct (IH ltac:(discriminate) H3 H5 (newline (S d)) (newline_blanks _)) as (l' & RL & EL). exists (a' :: l'). split; [constructor; auto|].
        cbn [map sep] in *. repeat (rewrite <- !app_assoc; cbn [app]). apply (e_cons b _ a' []); auto; [constructor]. }
    destruct (G (a :: l) ltac:(discriminate) WL H (newline (S d)) (newline_blanks _)) as (l' & RL & EL). exists (JArr l'). split; [now constructor|].
    change (pretty short d (JArr (a :: l))) with (91 :: newline (S d) ++ sep (44 :: newline (S d)) (map (pretty short (S d)) (a :: l)) ++ newline d ++ [93]).
    apply v_arr in EL. rewrite <- !app_assoc in EL. exact EL.
  - inversion W as [| | | | |m0 WL]; subst. destruct m as [|a m]; [exists (JObj []); split; [repeat constructor|apply (v_obj0 []); constructor]|].
    set (fp := fun (kv : bytes * json) => match kv with (k, v) => encStr short k ++ 58 :: 32 :: pretty short (S d) v end).
    assert (G : forall l, l <> [] -> Forall (fun a => Forall (fun b => 0 <= b < 256) (fst a) /\ Writable (snd a)) l ->
      Forall (fun a : bytes * json => Writable (snd a) -> forall d, exists v', Repaired (snd a) v' /\ Value (pretty short d (snd a)) v') l ->
      forall b, blanks b -> exists l', Forall2 (fun a b => Repair (fst a) (fst b) /\ Repaired (snd a) (snd b)) l l' /\ Members (b ++ sep (44 :: newline (S d)) (map fp l) ++ newline d) l').
    { clear. induction l as [|[k v] l IH]; intros NE WL H b HB; [congruence|]. inversion WL as [|? ? [W1 W2] W3]; subst. inversion H; subst. cbn [fst snd] in *.
      destruct (H2 W2 (S d)) as (a' & RA & VA). destruct (repair_total (length k) k) as (k' & HR); auto. pose proof (enc_chars short _ _ HR) as HC. destruct l as [|c l].
      - exists [(k', a')]. split; [repeat constructor; auto|]. cbn [map sep]. unfold fp, encStr.
        pose proof (m_one b _ k' [] [32] _ a' (newline d) HB HC ltac:(constructor) ltac:(repeat constructor) VA (newline_blanks d)) as M.
        cbn [app] in M. rewrite <- !app_comm_cons. repeat (rewrite <- !app_assoc; cbn [app]). exact M.
      - destruct (IH ltac:(discriminate) W3 H3 (newline (S d)) (newline_blanks _)) as (l' & RL & EL). exists ((k', a') :: l'). split; [constructor; auto|].
        pose proof (m_cons b _ k' [] [32] _ a' [] _ _ HB HC ltac:(constructor) ltac:(repeat constructor) VA ltac:(constructor) EL) as M.
        cbn [map sep] in *. unfold fp at 1, encStr. cbn [app] in M. repeat (rewrite <- !app_assoc; cbn [app]). repeat (rewrite <- !app_assoc in M; cbn [app] in M). exact M. }
    destruct (G (a :: m) ltac:(discriminate) WL H (newline (S d)) (newline_blanks _)) as (l' & RL & EL). exists (JObj l'). split; [now constructor|].
    change (pretty short d (JObj (a :: m))) with (123 :: newline (S d) ++ sep (44 :: newline (S d)) (map fp (a :: m)) ++ newline d ++ [125]).
    apply v_obj in EL. rewrite <- !app_assoc in EL. exact EL.
Qed.
