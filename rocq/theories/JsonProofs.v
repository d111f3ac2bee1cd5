(** The decoder reads the grammar of JsonSpec.v and nothing else; the encoder writes it. *)
From Coq Require Import String.
From Verif Require Import Base Utf8 Json JsonSpec Utf8Proofs StrconvProofs.
Open Scope string_scope.
Open Scope list_scope.
Open Scope Z_scope.

(** ** Strings *)

Lemma prepend_app : forall p q x, prepend p (prepend q x) = prepend (p ++ q) x.
Proof. intros p q [[v r]|]; simpl; [now rewrite app_assoc|reflexivity]. Qed.

Lemma prepend_nil : forall x, prepend [] x = x.
Proof. intros [[v r]|]; reflexivity. Qed.

Lemma chars_skip : forall p s, chars (length p) (p ++ s) = prepend p (chars O s).
Proof.
  induction p as [|b p IH]; intros s; [now rewrite prepend_nil|]. cbn [length app chars]. rewrite IH, prepend_app. reflexivity.
Qed.

Lemma hex_val : forall b, hexVal b = match find (fun p => fst p =? b) hexTable with Some (_, x) => Some x | None => None end.
Proof.
  intros b. unfold hexVal, inRangeB, hexTable. cbn [map app find fst].
  repeat match goal with |- _ = match (if ?c =? b then _ else _) with _ => _ end => destruct (c =? b) eqn:?; [replace b with c by lia; reflexivity|] end.
  repeat match goal with |- context [if ?c then _ else _] => destruct c eqn:?; [lia|] end. reflexivity.
Qed.

Lemma hex_in : forall b x, hexVal b = Some x <-> In (b, x) hexTable.
Proof.
  intros b x. split.
  - rewrite hex_val. destruct (find _ hexTable) as [[b' x']|] eqn:E; [|discriminate]. intros H. inversion H; subst.
    apply find_some in E as [E1 E2]. cbn [fst] in E2. replace b with b' by lia. auto.
  - intros H. unfold hexTable in H. cbn [map app In] in H.
    repeat (destruct H as [H|H]; [injection H as <- <-; reflexivity|]). destruct H.
Qed.

Lemma hex4_iff : forall a b c d u, hex4 a b c d = Some u <-> Hex4 [a; b; c; d] u.
Proof.
  intros. unfold hex4. split.
  - destruct (hexVal a) as [x|] eqn:A; [|discriminate]. destruct (hexVal b) as [y|] eqn:B; [|discriminate].
    destruct (hexVal c) as [z|] eqn:C; [|discriminate]. destruct (hexVal d) as [w|] eqn:D; [|discriminate]. intros H. inversion H; subst.
    apply hex_in in A, B, C, D. replace (((x * 16 + y) * 16 + z) * 16 + w) with (x * 4096 + y * 256 + z * 16 + w) by lia. now constructor.
  - intros H. inversion H; subst. repeat match goal with K : In _ hexTable |- _ => apply hex_in in K; rewrite K end. f_equal. lia.
Qed.

Lemma hex4_len : forall h u, Hex4 h u -> exists a b c d, h = [a; b; c; d] /\ hex4 a b c d = Some u /\ Forall (fun x => 48 <= x <= 102) h.
Proof.
  intros h u H. inversion H; subst. exists a, b, c, d. split; auto. split; [now apply hex4_iff|].
  assert (K : forall p, In p hexTable -> 48 <= fst p <= 102) by (apply Forall_forall; unfold hexTable; cbn [map app]; repeat constructor; cbn [fst]; lia).
  repeat constructor; match goal with K1 : In (?a, _) hexTable |- _ <= ?a <= _ => apply K in K1; exact K1 | K1 : In (?a, _) hexTable |- _ <= ?a => apply K in K1; cbn [fst] in K1; lia | K1 : In (?a, _) hexTable |- ?a <= _ => apply K in K1; cbn [fst] in K1; lia end.
Qed.

Lemma hex4_func : forall h u v, Hex4 h u -> Hex4 h v -> u = v.
Proof.
  intros h u v H K. destruct (hex4_len h u H) as (a & b & c & d & -> & E & _). apply hex4_iff in K. congruence.
Qed.

Lemma esc_in : forall e c, shortEsc e = Some c <-> In (e, c) escTable.
Proof.
  intros e c. split.
  - unfold shortEsc, escTable. intros H.
    repeat match type of H with (if ?x then _ else _) = _ => destruct x eqn:?; [injection H as <-|] end; try discriminate; cbn [In];
      repeat match goal with K : (_ || _) = true |- _ => apply orb_prop in K as [K|K] end;
      match goal with K : (e =? _) = true |- _ => apply Z.eqb_eq in K; subst e end; tauto.
  - intros H. unfold escTable in H. cbn [In] in H. repeat (destruct H as [H|H]; [injection H as <- <-; reflexivity|]). destruct H.
Qed.

(** What lies ahead is decided before the closing quote. *)
Lemma prefix_split : forall (p x t : bytes) q rest, p ++ x = t ++ q :: rest -> ~ In q p -> exists y, t = p ++ y.
Proof.
  induction p as [|b p IH]; intros x t q rest H N; [now exists t|]. destruct t as [|c t].
  - injection H as -> _. exfalso. apply N. now left.
  - injection H as -> H. destruct (IH _ _ _ _ H) as (y & ->); [intros K; apply N; now right|]. now exists y.
Qed.

Lemma ahead_quote : forall t rest, runeAhead (t ++ 34 :: rest) -> runeAhead t.
Proof.
  intros t rest (r & x & HS & HR & E). destruct (encode_high r HS HR) as (b & u & EE & HB & HU & _).
  symmetry in E. apply prefix_split in E as (y & ->); [now exists r, y|]. rewrite EE. intros [K|K]; [lia|]. rewrite Forall_forall in HU. apply HU in K. lia.
Qed.

Lemma ahead_more : forall t x, runeAhead t -> runeAhead (t ++ x).
Proof. intros t x (r & y & HS & HR & ->). exists r, (y ++ x). rewrite app_assoc. auto. Qed.

Lemma low_quote : forall t rest, lowAhead (t ++ 34 :: rest) -> lowAhead t.
Proof.
  intros t rest (h & v & x & HH & HV & E). destruct (hex4_len h v HH) as (a & b & c & d & EH & _ & HF).
  symmetry in E. change (92 :: 117 :: h ++ x) with ((92 :: 117 :: h) ++ x) in E.
  apply prefix_split in E as (y & ->); [exists h, v, y; repeat split; auto; lia|]. intros [K|[K|K]]; [discriminate|discriminate|].
  rewrite Forall_forall in HF. apply HF in K. lia.
Qed.

Lemma low_more : forall t x, lowAhead t -> lowAhead (t ++ x).
Proof. intros t x (h & v & y & HH & HV & ->). exists h, v, (y ++ x). rewrite !app_comm_cons, app_assoc. repeat split; auto; lia. Qed.

(** The test the decoder makes for the second half of a pair. *)
Definition pairTest (u : Z) (r : bytes) : option (Z * bytes) :=
  match r with
  | x :: y :: a :: b :: c :: d :: r3 =>
    match (if (x =? 92) && (y =? 117) then match hex4 a b c d with Some v => surrogates u v | None => None end else None) with
    | Some c => Some (c, r3)
    | None => None
    end
  | _ => None
  end.

Lemma pair_some : forall u r c r3, pairTest u r = Some (c, r3) <->
  exists h v, r = 92 :: 117 :: h ++ r3 /\ Hex4 h v /\ 55296 <= u <= 56319 /\ 56320 <= v <= 57343 /\ c = 65536 + (u - 55296) * 1024 + (v - 56320).
Proof.
  intros u r c r3. unfold pairTest. split.
  - destruct r as [|x [|y [|a [|b [|e [|d r0]]]]]]; try discriminate. destruct ((x =? 92) && (y =? 117)) eqn:E; [|discriminate].
    destruct (hex4 a b e d) as [v|] eqn:EH; [|discriminate]. unfold surrogates, inRangeB. destruct (_ && _ && _) eqn:ES; [|discriminate].
    intros H. inversion H; subst. exists [a; b; e; d], v. apply hex4_iff in EH. split; [|repeat split; auto; lia].
    replace x with 92 by lia. replace y with 117 by lia. reflexivity.
  - intros (h & v & -> & HH & HU & HV & ->). destruct (hex4_len h v HH) as (a & b & e & d & -> & E & _). cbn [app]. rewrite !Z.eqb_refl, E.
    unfold surrogates, inRangeB. cbn [andb].
    replace ((55296 <=? u) && (u <=? 56319) && ((56320 <=? v) && (v <=? 57343))) with true by lia. do 2 f_equal. lia.
Qed.

Lemma pair_none : forall u r, 55296 <= u <= 57343 -> pairTest u r = None <-> ~ (u <= 56319 /\ lowAhead r).
Proof.
  intros u r HU. split.
  - intros H (HL & h & v & x & HH & HV & ->).
    assert (K : pairTest u (92 :: 117 :: h ++ x) = Some (65536 + (u - 55296) * 1024 + (v - 56320), x)) by (apply pair_some; exists h, v; repeat split; auto; lia).
    congruence.
  - intros H. destruct (pairTest u r) as [[c r3]|] eqn:E; auto. exfalso. apply pair_some in E as (h & v & -> & HH & H1 & H2 & _).
    apply H. split; [lia|]. exists h, v, r3. auto.
Qed.

(** The escape rules of [chars]. *)
Lemma chars_u : forall h u r, Hex4 h u -> chars O (92 :: 117 :: h ++ r) =
  if isSurrogate u then match pairTest u r with Some (c, r3) => prepend (encodeRune c) (chars O r3) | None => prepend (encodeRune RuneError) (chars O r) end
  else prepend (encodeRune u) (chars O r).
Proof.
  intros h u r H. destruct (hex4_len h u H) as (a & b & c & d & -> & E & _).
  change (chars 0 (92 :: 117 :: [a; b; c; d] ++ r)) with
    (match hex4 a b c d with
     | None => None
     | Some u =>
       if isSurrogate u then
         match r with
         | x :: y :: a' :: b' :: c' :: d' :: r3 =>
           match (if (x =? 92) && (y =? 117) then match hex4 a' b' c' d' with Some v => surrogates u v | None => None end else None) with
           | Some c => prepend (encodeRune c) (chars O r3)
           | None => prepend (encodeRune RuneError) (chars O r)
           end
         | _ => prepend (encodeRune RuneError) (chars O r)
         end
       else prepend (encodeRune u) (chars O r)
     end).
  rewrite E. destruct (isSurrogate u); [|reflexivity]. unfold pairTest.
  destruct r as [|x [|y [|a' [|b' [|c' [|d' r0]]]]]]; try reflexivity.
  destruct (if (x =? 92) && (y =? 117) then match hex4 a' b' c' d' with Some v => surrogates u v | None => None end else None); reflexivity.
Qed.

Lemma chars_high : forall b r, 128 <= b -> chars O (b :: r) =
  let '(c, w) := decodeRune (b :: r) in
  if (c =? RuneError) && (w =? 1) then prepend (encodeRune RuneError) (chars O r) else prepend [b] (chars (Z.to_nat (w - 1)) r).
Proof.
  intros b r H. cbn [chars]. replace (b =? 34) with false by lia. replace (b <? 32) with false by lia. replace (b =? 92) with false by lia.
  replace (b <? 128) with false by lia. reflexivity.
Qed.

Lemma chars_rune : forall r t, scalar r -> 128 <= r -> chars O (encodeRune r ++ t) = prepend (encodeRune r) (chars O t).
Proof.
  intros r t HS HR. destruct (encode_high r HS HR) as (b & u & EE & HB & _ & L). pose proof (encode_rune r t HS) as D. rewrite EE in *. cbn [app] in *.
  rewrite chars_high by auto. rewrite D. unfold zlen. cbn [length]. replace (Z.of_nat (S (length u)) =? 1) with false by (symmetry; apply Z.eqb_neq; lia). rewrite andb_false_r.
  replace (Z.to_nat (Z.of_nat (S (length u)) - 1)) with (length u) by lia. now rewrite chars_skip, prepend_app.
Qed.

Lemma chars_complete : forall t v, Chars t v -> forall rest, chars O (t ++ 34 :: rest) = Some (v, rest).
Proof.
  intros t v H. induction H; intros rest.
  - reflexivity.
  - cbn [app chars]. replace (b =? 34) with false by lia. replace (b <? 32) with false by lia. replace (b =? 92) with false by lia.
    replace (b <? 128) with true by lia. rewrite IHChars. reflexivity.
  - rewrite <- app_assoc, chars_rune by auto. now rewrite IHChars.
  - cbn [app chars Z.eqb Pos.eqb Z.ltb Z.compare Pos.compare Pos.compare_cont]. assert (e <> 117) by (intros ->; unfold escTable in H; cbn [In] in H; repeat (destruct H as [H|H]; [discriminate H|]); destruct H).
    replace (e =? 117) with false by lia. apply esc_in in H. rewrite H, IHChars. reflexivity.
  - cbn [app]. rewrite <- app_assoc, chars_u with (u := u) by auto. unfold isSurrogate, inRangeB.
    replace ((55296 <=? u) && (u <=? 57343)) with false by lia. now rewrite IHChars.
  - cbn [app]. rewrite <- !app_assoc. cbn [app]. rewrite <- app_assoc. rewrite chars_u with (u := u) by auto. unfold isSurrogate, inRangeB.
    replace ((55296 <=? u) && (u <=? 57343)) with true by lia.
    assert (E : pairTest u (92 :: 117 :: h' ++ t ++ 34 :: rest) = Some (65536 + (u - 55296) * 1024 + (u' - 56320), t ++ 34 :: rest))
      by (apply pair_some; exists h', u'; repeat split; auto; lia).
    rewrite E, IHChars. reflexivity.
  - cbn [app]. rewrite <- app_assoc, chars_u with (u := u) by auto. unfold isSurrogate, inRangeB.
    replace ((55296 <=? u) && (u <=? 57343)) with true by lia.
    assert (E : pairTest u (t ++ 34 :: rest) = None) by (apply pair_none; auto; intros [K1 K2]; apply H1; split; auto; eapply low_quote; eauto).
    rewrite E, IHChars. reflexivity.
  - cbn [app]. rewrite chars_high by auto. assert (N : ~ runeAhead (b :: t ++ 34 :: rest)) by (rewrite app_comm_cons; intros K; apply ahead_quote in K; auto).
    apply bad_rune in N; auto. destruct (decodeRune (b :: t ++ 34 :: rest)) as [c w]. rewrite N, IHChars. reflexivity.
Qed.

Lemma prepend_some : forall p x v r, prepend p x = Some (v, r) -> exists v', x = Some (v', r) /\ v = p ++ v'.
Proof. intros p [[v' r']|] v r H; inversion H; subst; eauto. Qed.

Lemma chars_sound : forall n s v rest, (length s <= n)%nat -> chars O s = Some (v, rest) -> exists t, s = t ++ 34 :: rest /\ Chars t v.
Proof.
  induction n as [|n IH]; intros s v rest L H; (destruct s as [|b r]; [discriminate|]); cbn [length] in L; [lia|].
  destruct (Z_lt_ge_dec b 128) as [HB|HB].
  2:{ rewrite chars_high in H by lia. destruct (decodeRune (b :: r)) as [c w] eqn:ED. destruct ((c =? RuneError) && (w =? 1)) eqn:EB.
      - apply prepend_some in H as (v' & H & ->). apply IH in H as (t & -> & HT); [|lia]. exists (b :: t). split; auto.
        apply cs_bad; auto; [lia|]. intros K. apply (ahead_more _ (34 :: rest)) in K. cbn [app] in K. revert K. apply bad_rune; [lia|]. now rewrite ED.
      - assert (K : runeAhead (b :: r)) by (eapply good_rune; eauto; lia).
        destruct K as (x & u & HS & HR & E). pose proof (encode_rune x u HS) as D. rewrite <- E, ED in D. injection D as -> ->.
        destruct (encode_high x HS HR) as (b0 & t0 & EE & _ & _ & LL). rewrite EE in *. cbn [app] in E. injection E as <- ->.
        unfold zlen in H. cbn [length] in H. replace (Z.to_nat (Z.of_nat (S (length t0)) - 1)) with (length t0) in H by lia.
        rewrite chars_skip, prepend_app in H. apply prepend_some in H as (v' & H & ->). rewrite app_length in L.
        apply IH in H as (t & -> & HT); [|lia]. exists (encodeRune x ++ t). split; [rewrite EE; cbn [app]; now rewrite <- app_assoc|].
        cbn [app]. change (b :: t0 ++ v') with ((b :: t0) ++ v'). rewrite <- EE. now constructor. }
  cbn [chars] in H. destruct (b =? 34) eqn:E34.
  { inversion H; subst. exists []. split; [replace b with 34 by lia; reflexivity|constructor]. }
  destruct (b <? 32) eqn:E32; [discriminate|]. destruct (b =? 92) eqn:E92.
  2:{ replace (b <? 128) with true in H by lia. apply prepend_some in H as (v' & H & ->). apply IH in H as (t & -> & HT); [|lia].
      exists (b :: t). split; auto. constructor; auto; lia. }
  replace b with 92 by lia. clear HB E34 E32. destruct r as [|e r1]; [discriminate|]. cbn [length] in L. destruct (e =? 117) eqn:E117.
  2:{ destruct (shortEsc e) as [c|] eqn:ES; [|discriminate]. apply prepend_some in H as (v' & H & ->). apply IH in H as (t & -> & HT); [|lia].
      exists (92 :: e :: t). split; auto. apply esc_in in ES. now constructor. }
  replace e with 117 by lia. destruct r1 as [|a [|b' [|c [|d r2]]]]; try discriminate. cbn [length] in L.
  destruct (hex4 a b' c d) as [u|] eqn:EH; [|discriminate]. pose proof (proj1 (hex4_iff _ _ _ _ _) EH) as HH.
  assert (H' : (if isSurrogate u then match pairTest u r2 with Some (c, r3) => prepend (encodeRune c) (chars O r3) | None => prepend (encodeRune RuneError) (chars O r2) end
                else prepend (encodeRune u) (chars O r2)) = Some (v, rest)).
  { rewrite <- (chars_u _ _ r2 HH). cbn [app chars]. cbn [Z.eqb Pos.eqb Z.ltb Z.compare Pos.compare Pos.compare_cont]. rewrite EH. exact H. }
  clear H. unfold isSurrogate, inRangeB in H'. destruct ((55296 <=? u) && (u <=? 57343)) eqn:ES.
  - destruct (pairTest u r2) as [[z r3]|] eqn:EP.
    + apply prepend_some in H' as (v' & H & ->). apply pair_some in EP as (h & x & -> & HX & H1 & H2 & ->).
      destruct (hex4_len _ _ HX) as (x1 & x2 & x3 & x4 & -> & _ & _). cbn [app length] in L. apply IH in H as (t & -> & HT); [|lia].
      exists (92 :: 117 :: [a; b'; c; d] ++ 92 :: 117 :: [x1; x2; x3; x4] ++ t). split; auto. now apply cs_pair.
    + apply prepend_some in H' as (v' & H & ->). apply IH in H as (t & -> & HT); [|lia].
      exists (92 :: 117 :: [a; b'; c; d] ++ t). split; auto. apply cs_lone with u; auto; [lia|]. apply pair_none in EP; [|lia].
      intros [K1 K2]. apply EP. split; auto. now apply low_more.
  - apply prepend_some in H' as (v' & H & ->). apply IH in H as (t & -> & HT); [|lia].
    exists (92 :: 117 :: [a; b'; c; d] ++ t). split; auto. apply cs_hex; auto. lia.
Qed.

(** ** Numbers *)

Definition stops (rest : bytes) : Prop := match rest with [] => True | b :: _ => ~ 48 <= b <= 57 /\ ~ In b [46; 101; 69] end.
Definition noDigit (rest : bytes) : Prop := match rest with [] => True | b :: _ => ~ 48 <= b <= 57 end.

Lemma stops_noDigit : forall r, stops r -> noDigit r.
Proof. intros [|b r]; simpl; tauto. Qed.

Lemma decDigits_app : forall d r, digits d -> noDigit r -> decDigits (d ++ r) = (d, r).
Proof.
  induction d as [|b d IH]; intros r HD HN.
  - destruct r as [|b r]; [reflexivity|]. simpl in HN. cbn [app decDigits]. unfold isDec, inRangeB. replace ((48 <=? b) && (b <=? 57)) with false by lia. reflexivity.
  - inversion HD; subst. cbn [app decDigits]. unfold isDec, inRangeB. replace ((48 <=? b) && (b <=? 57)) with true by lia. now rewrite IH.
Qed.

Lemma decDigits_sound : forall s d r, decDigits s = (d, r) -> s = d ++ r /\ digits d.
Proof.
  induction s as [|b s IH]; intros d r H; cbn [decDigits] in H; [inversion H; split; [auto|constructor]|].
  unfold isDec, inRangeB in H. destruct ((48 <=? b) && (b <=? 57)) eqn:E.
  - destruct (decDigits s) as [d' r'] eqn:ED. inversion H; subst. destruct (IH _ _ eq_refl) as [-> HD]. split; auto. constructor; auto. lia.
  - inversion H; subst. split; [auto|constructor].
Qed.

Lemma intPart_complete : forall i r, (i = [48] \/ exists d x, i = d :: x /\ 49 <= d <= 57 /\ digits x) -> noDigit r -> intPart (i ++ r) = Some (i, r).
Proof.
  intros i r [-> |(d & x & -> & HD & HX)] N; [reflexivity|]. unfold intPart. cbn [app]. replace (d =? 48) with false by lia.
  unfold isDec, inRangeB. replace ((48 <=? d) && (d <=? 57)) with true by lia. rewrite app_comm_cons, decDigits_app; auto. constructor; auto. lia.
Qed.

Lemma fracPart_complete : forall f r, (f = [] \/ exists ds, f = 46 :: ds /\ ds <> [] /\ digits ds) -> noDigit r -> (f = [] -> hd 0 r <> 46) -> fracPart (f ++ r) = Some (f, r).
Proof.
  intros f r [-> |(ds & -> & HN & HD)] N H.
  - cbn [app]. destruct r as [|b r]; [reflexivity|]. simpl in *. replace (b =? 46) with false by (specialize (H eq_refl); lia). reflexivity.
  - cbn [app fracPart Z.eqb Pos.eqb]. rewrite decDigits_app; auto. destruct ds; [congruence|reflexivity].
Qed.

Lemma expPart_complete : forall e r, (e = [] \/ exists b sg ds, e = b :: sg ++ ds /\ In b [101; 69] /\ In sg [[]; [43]; [45]] /\ ds <> [] /\ digits ds) ->
  noDigit r -> (e = [] -> hd 0 r <> 101 /\ hd 0 r <> 69) -> expPart (e ++ r) = Some (e, r).
Proof.
  intros e r [-> |(b & sg & ds & -> & HB & HS & HN & HD)] N H.
  - cbn [app]. destruct r as [|b r]; [reflexivity|]. simpl in *. destruct (H eq_refl). replace ((b =? 101) || (b =? 69)) with false by lia. reflexivity.
  - cbn [app]. rewrite <- app_assoc. unfold expPart.
    replace ((b =? 101) || (b =? 69)) with true by (simpl in HB; lia).
    assert (E : expSign (sg ++ ds ++ r) = (sg, ds ++ r)).
    { unfold expSign. destruct ds as [|d ds]; [congruence|]. inversion HD; subst. simpl in HS. destruct HS as [<-|[<-|[<-|[]]]]; cbn [app].
      - replace ((d =? 43) || (d =? 45)) with false by lia. reflexivity.
      - reflexivity.
      - reflexivity. }
    rewrite E,  decDigits_app; auto. destruct ds; [congruence|reflexivity].
Qed.

Lemma number_complete : forall t rest, NumberText t -> stops rest -> number (t ++ rest) = Some (t, rest).
Proof.
  intros t rest (sign & int & frac & exp & -> & HS & HI & HF & HE) ST.
  assert (N1 : noDigit (exp ++ rest) /\ hd 0 (exp ++ rest) <> 46).
  { destruct HE as [-> |(b & sg & ds & -> & HB & _)]; simpl in *; [|lia]. destruct rest; simpl in *; lia. }
  assert (N2 : noDigit (frac ++ exp ++ rest)).
  { destruct HF as [-> |(ds & -> & _)]; simpl; [tauto|lia]. }
  unfold number.
  assert (E : minus ((sign ++ int ++ frac ++ exp) ++ rest) = (sign, int ++ frac ++ exp ++ rest)).
  { unfold minus. rewrite <- !app_assoc. destruct HS as [-> | ->]; [|reflexivity]. cbn [app].
    destruct HI as [-> |(d & x & -> & HD & _)]; cbn [app]; [reflexivity|]. replace (d =? 45) with false by lia. reflexivity. }
  rewrite E,  intPart_complete; auto. rewrite fracPart_complete; [|auto|tauto|tauto].
  rewrite expPart_complete; [reflexivity|auto|now apply stops_noDigit|]. intros _. destruct rest; simpl in *; lia.
Qed.

Lemma number_sound : forall s t rest, number s = Some (t, rest) -> s = t ++ rest /\ NumberText t.
Proof.
  intros s t rest H. unfold number in H.
  assert (E0 : exists sg s1, minus s = (sg, s1) /\ s = sg ++ s1 /\ (sg = [] \/ sg = [45])).
  { unfold minus. destruct s as [|b r]; [exists [], []; auto|]. destruct (b =? 45) eqn:E; [exists [45], r|exists [], (b :: r)]; repeat split; auto. replace b with 45 by lia. reflexivity. }
  destruct E0 as (sg & s1 & E & -> & HS). rewrite E in H. clear E.
  destruct (intPart s1) as [[i s2]|] eqn:EI; [|discriminate].
  assert (HI : s1 = i ++ s2 /\ (i = [48] \/ exists d r, i = d :: r /\ 49 <= d <= 57 /\ digits r)).
  { unfold intPart in EI. destruct s1 as [|b r]; [discriminate|]. destruct (b =? 48) eqn:E; [inversion EI; subst; split; [replace b with 48 by lia; reflexivity|auto]|].
    unfold isDec, inRangeB in EI. destruct ((48 <=? b) && (b <=? 57)) eqn:E2; [|discriminate]. assert (EI2 : decDigits (b :: r) = (i, s2)) by congruence. clear EI. pose proof EI2 as EI. apply decDigits_sound in EI as [EI HD].
    split; auto. right. destruct i as [|d x].
    - cbn [decDigits] in EI2. unfold isDec, inRangeB in EI2. rewrite E2 in EI2. destruct (decDigits r). discriminate.
    - cbn [app] in EI. injection EI as -> EI. inversion HD; subst. exists d, x. repeat split; auto; lia. }
  destruct HI as [-> HI]. destruct (fracPart s2) as [[f s3]|] eqn:EF; [|discriminate].
  assert (HF : s2 = f ++ s3 /\ (f = [] \/ exists ds, f = 46 :: ds /\ ds <> [] /\ digits ds)).
  { unfold fracPart in EF. destruct s2 as [|b r]; [inversion EF; auto|]. destruct (b =? 46) eqn:E; [|inversion EF; auto].
    destruct (decDigits r) as [[|d0 d] r'] eqn:ED; [discriminate|]. inversion EF; subst. apply decDigits_sound in ED as [-> HD].
    split; [replace b with 46 by lia; reflexivity|]. right. exists (d0 :: d). repeat split; auto. discriminate. }
  destruct HF as [-> HF]. destruct (expPart s3) as [[e s4]|] eqn:EE; [|discriminate]. inversion H; subst. clear H.
  assert (HE : s3 = e ++ rest /\ (e = [] \/ exists b sg ds, e = b :: sg ++ ds /\ In b [101; 69] /\ In sg [[]; [43]; [45]] /\ ds <> [] /\ digits ds)).
  { unfold expPart in EE. destruct s3 as [|b r]; [inversion EE; auto|]. destruct ((b =? 101) || (b =? 69)) eqn:E; [|inversion EE; auto].
    assert (E1 : exists sg r1, expSign r = (sg, r1) /\ r = sg ++ r1 /\ In sg [[]; [43]; [45]]).
    { unfold expSign. destruct r as [|c r1]; [exists [], []; simpl; auto|]. destruct ((c =? 43) || (c =? 45)) eqn:E2; [exists [c], r1|exists [], (c :: r1)]; repeat split; auto; simpl; auto.
      apply orb_prop in E2 as [E2|E2]; apply Z.eqb_eq in E2; subst; auto. }
    destruct E1 as (sg1 & r1 & E1 & -> & HS1). rewrite E1 in EE. destruct (decDigits r1) as [[|d0 d] r'] eqn:ED; [discriminate|]. inversion EE; subst.
    apply decDigits_sound in ED as [-> HD]. split; [cbn [app]; now rewrite <- app_assoc|]. right. exists b, sg1, (d0 :: d). repeat split; auto; [simpl; lia|discriminate]. }
  destruct HE as [-> HE]. split; [now rewrite <- !app_assoc|]. exists sg, i, f, e. auto.
Qed.

(** ** Values *)

Lemma ws_iff : forall b, isWs b = true <-> In b [32; 9; 10; 13].
Proof. intros b. unfold isWs. simpl. lia. Qed.

Lemma skip_blanks : forall a s, blanks a -> skipWs (a ++ s) = skipWs s.
Proof. induction a as [|b a IH]; intros s H; [reflexivity|]. inversion H; subst. cbn [app skipWs]. apply ws_iff in H2. rewrite H2. auto. Qed.

Lemma skip_sound : forall s, exists a, blanks a /\ s = a ++ skipWs s.
Proof.
  induction s as [|b s IH]; [exists []; split; [constructor|reflexivity]|]. cbn [skipWs]. destruct (isWs b) eqn:E.
  - destruct IH as (a & HA & EA). exists (b :: a). split; [constructor; [now apply ws_iff|auto]|]. cbn [app]. now f_equal.
  - exists []. split; [constructor|reflexivity].
Qed.

Lemma skip_cons : forall b s, ~ In b [32; 9; 10; 13] -> skipWs (b :: s) = b :: s.
Proof. intros b s H. cbn [skipWs]. destruct (isWs b) eqn:E; auto. apply ws_iff in E. contradiction. Qed.

Lemma word_complete : forall w r, word w (w ++ r) = Some r.
Proof. induction w as [|b w IH]; intros r; [reflexivity|]. cbn [app word]. now rewrite Z.eqb_refl. Qed.

Lemma word_sound : forall w s r, word w s = Some r -> s = w ++ r.
Proof.
  induction w as [|b w IH]; intros s r H; [now inversion H|]. destruct s as [|c s]; [discriminate|]. cbn [word] in H. destruct (b =? c) eqn:E; [|discriminate].
  apply IH in H. subst. replace c with b by lia. reflexivity.
Qed.

Scheme Value_mind := Minimality for Value Sort Prop
  with Elems_mind := Minimality for Elems Sort Prop
  with Members_mind := Minimality for Members Sort Prop.
Combined Scheme json_mind from Value_mind, Elems_mind, Members_mind.

Definition isNum (v : json) : Prop := exists t, v = JNum t.

Definition firstOf (v : json) (c : Z) : Prop :=
  match v with
  | JNull => c = 110 | JBool b => c = if b then 116 else 102 | JNum _ => c = 45 \/ 48 <= c <= 57 | JStr _ => c = 34 | JArr _ => c = 91 | JObj _ => c = 123
  end.

Lemma value_first : forall t v, Value t v -> exists c r, t = c :: r /\ firstOf v c.
Proof.
  intros t v H. inversion H; subst; try (do 2 eexists; split; [reflexivity|reflexivity]).
  destruct H0 as (sg & i & f & e & -> & HS & HI & _). destruct HS as [-> | ->]; [|do 2 eexists; split; [reflexivity|simpl; auto]].
  destruct HI as [-> |(d & x & -> & HD & _)]; (do 2 eexists; split; [reflexivity|simpl; lia]).
Qed.

Lemma first_plain : forall v c, firstOf v c -> ~ In c [32; 9; 10; 13] /\ c <> 93 /\ c <> 125.
Proof. intros v c H. destruct v; simpl in *; try destruct b; lia. Qed.

Definition deepest (l : list json) : Z := fold_right Z.max 0 (map nesting l).
Definition deepestM (m : list (bytes * json)) : Z := fold_right Z.max 0 (map (fun kv => match kv with (_, v) => nesting v end) m).

Lemma fold_max_nonneg : forall l, 0 <= fold_right Z.max 0 l.
Proof. induction l; simpl; lia. Qed.

Lemma nesting_nonneg : forall v, 0 <= nesting v.
Proof. intros v. destruct v; cbn [nesting]; try lia; match goal with |- context [fold_right Z.max 0 ?l] => pose proof (fold_max_nonneg l) end; lia. Qed.

Lemma blank_stops : forall b c r, blanks b -> In c [44; 93; 125] -> stops (b ++ c :: r).
Proof. intros b c r H HC. destruct b as [|x b]; simpl in *; [lia|]. inversion H; subst. simpl in H2. lia. Qed.

Ltac eqbs := repeat match goal with |- context [?a =? ?b] => first [replace (a =? b) with false by lia | replace (a =? b) with true by lia] end.

Lemma json_complete :
  (forall t v, Value t v -> forall n d a rest, blanks a -> (2 * length t <= n)%nat -> d + nesting v <= maxNesting -> (isNum v -> stops rest) ->
     value n d (a ++ t ++ rest) = Some (v, rest)) /\
  (forall t l, Elems t l -> forall n d rest, (2 * length t + 1 <= n)%nat -> d + deepest l <= maxNesting -> elemsOf n d (t ++ 93 :: rest) = Some (l, rest)) /\
  (forall t m, Members t m -> forall n d rest, (2 * length t + 1 <= n)%nat -> d + deepestM m <= maxNesting -> membersOf n d (t ++ 125 :: rest) = Some (m, rest)).
Proof.
  apply json_mind.
  - intros n d a rest HA L HD _. destruct n as [|n]; [simpl in L; lia|]. cbn [value]. rewrite skip_blanks by auto. reflexivity.
  - intros n d a rest HA L HD _. destruct n as [|n]; [simpl in L; lia|]. cbn [value]. rewrite skip_blanks by auto. reflexivity.
  - intros n d a rest HA L HD _. destruct n as [|n]; [simpl in L; lia|]. cbn [value]. rewrite skip_blanks by auto. reflexivity.
  - intros t HT n d a rest HA L HD HS.
    destruct (value_first t (JNum t)) as (c & r & -> & HC); [now constructor|]. simpl in HC. destruct n as [|n]; [simpl in L; lia|].
    cbn [value]. rewrite skip_blanks by auto. cbn [app]. rewrite skip_cons by (simpl; lia). eqbs. rewrite app_comm_cons.
    rewrite number_complete; auto. apply HS. eexists; reflexivity.
  - intros t v HT n d a rest HA L HD _. destruct n as [|n]; [simpl in L; lia|]. cbn [value]. rewrite skip_blanks by auto. cbn [app].
    rewrite skip_cons by (simpl; lia). cbn [Z.eqb Pos.eqb]. rewrite <- app_assoc. cbn [app]. now rewrite (chars_complete _ _ HT).
  - intros w HW n d a rest HA L HD _. destruct n as [|n]; [simpl in L; lia|]. cbn [value]. rewrite skip_blanks by auto. cbn [app].
    rewrite skip_cons by (simpl; lia). cbn [Z.eqb Pos.eqb]. simpl in HD. replace (maxNesting <=? d) with false by lia. rewrite <- app_assoc, skip_blanks by auto. reflexivity.
  - intros t l HE IH n d a rest HA L HD _. destruct n as [|n]; [simpl in L; lia|]. cbn [value]. rewrite skip_blanks by auto. cbn [app].
    rewrite skip_cons by (simpl; lia). cbn [Z.eqb Pos.eqb]. cbn [nesting] in HD. fold (deepest l) in HD. pose proof (fold_max_nonneg (map nesting l)) as HN. fold (deepest l) in HN.
    replace (maxNesting <=? d) with false by lia. rewrite <- app_assoc. cbn [app].
    assert (K : exists c r, skipWs (t ++ 93 :: rest) = c :: r /\ c <> 93).
    { inversion HE; subst; (destruct (value_first _ _ ltac:(eassumption)) as (c & r & -> & HC)); apply first_plain in HC as (C1 & C2 & C3);
        rewrite <- app_assoc, skip_blanks by auto; cbn [app]; rewrite skip_cons by auto; eauto. }
    destruct K as (c & r & -> & HC). replace (c =? 93) with false by lia. rewrite IH; [reflexivity| |lia]. cbn [length] in L. rewrite app_length in L. simpl in L. lia.
  - intros w HW n d a rest HA L HD _. destruct n as [|n]; [simpl in L; lia|]. cbn [value]. rewrite skip_blanks by auto. cbn [app].
    rewrite skip_cons by (simpl; lia). cbn [Z.eqb Pos.eqb]. simpl in HD. replace (maxNesting <=? d) with false by lia. rewrite <- app_assoc, skip_blanks by auto. reflexivity.
  - intros t m HE IH n d a rest HA L HD _. destruct n as [|n]; [simpl in L; lia|]. cbn [value]. rewrite skip_blanks by auto. cbn [app].
    rewrite skip_cons by (simpl; lia). cbn [Z.eqb Pos.eqb]. cbn [nesting] in HD. fold (deepestM m) in HD.
    pose proof (fold_max_nonneg (map (fun kv : bytes * json => match kv with (_, v) => nesting v end) m)) as HN. fold (deepestM m) in HN.
    replace (maxNesting <=? d) with false by lia. rewrite <- app_assoc. cbn [app].
    assert (K : exists r, skipWs (t ++ 125 :: rest) = 34 :: r).
    { inversion HE; subst; rewrite <- app_assoc, skip_blanks by auto; cbn [app]; rewrite skip_cons by (simpl; lia); eauto. }
    destruct K as (r & ->). cbn [Z.eqb Pos.eqb]. rewrite IH; [reflexivity| |lia]. cbn [length] in L. rewrite app_length in L. simpl in L. lia.
  - intros a t v b HA HV IH HB n d rest L HD. destruct n as [|n]; [lia|]. cbn [elemsOf]. rewrite !app_length in L. unfold deepest in HD. cbn [map fold_right] in HD.
    replace ((a ++ t ++ b) ++ 93 :: rest) with (a ++ t ++ b ++ 93 :: rest) by (rewrite <- !app_assoc; reflexivity).
    rewrite IH; [|auto|lia|lia|intros _; apply blank_stops; simpl; auto]. rewrite skip_blanks by auto. reflexivity.
  - intros a t v b ts l HA HV IH HB HE IHE n d rest L HD. destruct n as [|n]; [lia|]. cbn [elemsOf]. rewrite !app_length in L. cbn [length] in L. unfold deepest in HD. cbn [map fold_right] in HD.
    fold (deepest l) in HD.
    replace ((a ++ t ++ b ++ 44 :: ts) ++ 93 :: rest) with (a ++ t ++ b ++ 44 :: ts ++ 93 :: rest) by (rewrite <- !app_assoc; reflexivity).
    rewrite IH; [|auto|lia|lia|intros _; apply blank_stops; simpl; auto]. rewrite skip_blanks by auto. rewrite skip_cons by (simpl; lia). cbn [Z.eqb Pos.eqb].
    rewrite IHE; [reflexivity|lia|lia].
  - intros a kt k b c t v e HA HK HB HC HV IH HE n d rest L HD. destruct n as [|n]; [lia|]. cbn [membersOf]. rewrite !app_length in L. cbn [length] in L. rewrite !app_length in L. cbn [length] in L.
    rewrite !app_length in L. cbn [length] in L. rewrite !app_length in L. unfold deepestM in HD. cbn [map fold_right] in HD.
    replace ((a ++ 34 :: kt ++ 34 :: b ++ 58 :: c ++ t ++ e) ++ 125 :: rest) with (a ++ 34 :: kt ++ 34 :: b ++ 58 :: c ++ t ++ e ++ 125 :: rest)
      by (repeat (rewrite <- !app_assoc; cbn [app]); reflexivity).
    rewrite skip_blanks by auto. rewrite skip_cons by (simpl; lia). cbn [Z.eqb Pos.eqb]. rewrite (chars_complete _ _ HK). rewrite skip_blanks by auto.
    rewrite skip_cons by (simpl; lia). cbn [Z.eqb Pos.eqb]. rewrite IH; [|auto|lia|lia|intros _; apply blank_stops; simpl; auto]. rewrite skip_blanks by auto. reflexivity.
  - intros a kt k b c t v e ts m HA HK HB HC HV IH HE HM IHM n d rest L HD. destruct n as [|n]; [lia|]. cbn [membersOf]. repeat (rewrite !app_length in L; cbn [length] in L).
    unfold deepestM in HD. cbn [map fold_right] in HD. fold (deepestM m) in HD.
    replace ((a ++ 34 :: kt ++ 34 :: b ++ 58 :: c ++ t ++ e ++ 44 :: ts) ++ 125 :: rest) with (a ++ 34 :: kt ++ 34 :: b ++ 58 :: c ++ t ++ e ++ 44 :: ts ++ 125 :: rest)
      by (repeat (rewrite <- !app_assoc; cbn [app]); reflexivity).
    rewrite skip_blanks by auto. rewrite skip_cons by (simpl; lia). cbn [Z.eqb Pos.eqb]. rewrite (chars_complete _ _ HK). rewrite skip_blanks by auto.
    rewrite skip_cons by (simpl; lia). cbn [Z.eqb Pos.eqb]. rewrite IH; [|auto|lia|lia|intros _; apply blank_stops; simpl; auto]. rewrite skip_blanks by auto.
    rewrite skip_cons by (simpl; lia). cbn [Z.eqb Pos.eqb]. rewrite IHM; [reflexivity|lia|lia].
Qed.

Lemma skip_split : forall s c r, skipWs s = c :: r -> exists a, blanks a /\ s = a ++ c :: r.
Proof. intros s c r H. destruct (skip_sound s) as (a & HA & E). rewrite H in E. eauto. Qed.

Lemma json_sound : forall n,
  (forall d s v rest, d <= maxNesting -> value n d s = Some (v, rest) -> exists a t, blanks a /\ s = a ++ t ++ rest /\ Value t v /\ d + nesting v <= maxNesting) /\
  (forall d s l rest, d <= maxNesting -> elemsOf n d s = Some (l, rest) -> exists t, s = t ++ 93 :: rest /\ Elems t l /\ d + deepest l <= maxNesting) /\
  (forall d s m rest, d <= maxNesting -> membersOf n d s = Some (m, rest) -> exists t, s = t ++ 125 :: rest /\ Members t m /\ d + deepestM m <= maxNesting).
Proof.
  induction n as [|n (IHV & IHE & IHM)]; [repeat split; intros; discriminate|]. repeat split.
  - intros d s v rest HD H. cbn [value] in H. destruct (skipWs s) as [|b r] eqn:ES; [discriminate|]. apply skip_split in ES as (a & HA & ->).
    exists a. enough (G : exists t, b :: r = t ++ rest /\ Value t v /\ d + nesting v <= maxNesting) by (destruct G as (t & E & G); exists t; rewrite E; auto).
    destruct (b =? 123) eqn:E1.
    { replace b with 123 in * by lia. destruct (maxNesting <=? d) eqn:EN; [discriminate|]. destruct (skipWs r) as [|c r'] eqn:EC; [discriminate|]. destruct (c =? 125) eqn:E2.
      - inversion H; subst. apply skip_split in EC as (w & HW & ->). exists (123 :: w ++ [125]). repeat split.
        + cbn [app]. rewrite <- app_assoc. cbn [app]. now replace c with 125 by lia.
        + now constructor.
        + simpl. lia.
      - destruct (membersOf n (d + 1) r) as [[m r2]|] eqn:EM; [|discriminate]. inversion H; subst. apply IHM in EM as (t & -> & HM & HN); [|lia].
        exists (123 :: t ++ [125]). repeat split; [cbn [app]; now rewrite <- app_assoc|now constructor|]. cbn [nesting]. fold (deepestM m). lia. }
    destruct (b =? 91) eqn:E3.
    { replace b with 91 in * by lia. destruct (maxNesting <=? d) eqn:EN; [discriminate|]. destruct (skipWs r) as [|c r'] eqn:EC; [discriminate|]. destruct (c =? 93) eqn:E2.
      - inversion H; subst. apply skip_split in EC as (w & HW & ->). exists (91 :: w ++ [93]). repeat split.
        + cbn [app]. rewrite <- app_assoc. cbn [app]. now replace c with 93 by lia.
        + now constructor.
        + simpl. lia.
      - destruct (elemsOf n (d + 1) r) as [[m r2]|] eqn:EM; [|discriminate]. inversion H; subst. apply IHE in EM as (t & -> & HM & HN); [|lia].
        exists (91 :: t ++ [93]). repeat split; [cbn [app]; now rewrite <- app_assoc|now constructor|]. cbn [nesting]. fold (deepest m). lia. }
    destruct (b =? 34) eqn:E4.
    { destruct (chars O r) as [[w r']|] eqn:EC; [|discriminate]. inversion H; subst. apply (chars_sound (length r)) in EC as (t & -> & HC); [|lia].
      exists (34 :: t ++ [34]). repeat split; [cbn [app]; rewrite <- app_assoc; now replace b with 34 by lia|now constructor|simpl; lia]. }
    destruct (b =? 116) eqn:E5.
    { destruct (word (str "rue") r) as [r'|] eqn:EW; [|discriminate]. inversion H; subst. apply word_sound in EW as ->. exists (str "true").
      repeat split; [replace b with 116 by lia; reflexivity|constructor|simpl; lia]. }
    destruct (b =? 102) eqn:E6.
    { destruct (word (str "alse") r) as [r'|] eqn:EW; [|discriminate]. inversion H; subst. apply word_sound in EW as ->. exists (str "false").
      repeat split; [replace b with 102 by lia; reflexivity|constructor|simpl; lia]. }
    destruct (b =? 110) eqn:E7.
    { destruct (word (str "ull") r) as [r'|] eqn:EW; [|discriminate]. inversion H; subst. apply word_sound in EW as ->. exists (str "null").
      repeat split; [replace b with 110 by lia; reflexivity|constructor|simpl; lia]. }
    destruct (number (b :: r)) as [[t r']|] eqn:EN; [|discriminate]. inversion H; subst. apply number_sound in EN as [EN HN]. exists t.
    repeat split; [auto|now constructor|simpl; lia].
  - intros d s l rest HD H. cbn [elemsOf] in H. destruct (value n d s) as [[v r]|] eqn:EV; [|discriminate]. apply IHV in EV as (a & t & HA & -> & HV & HN); [|auto].
    destruct (skipWs r) as [|c r1] eqn:ES; [discriminate|]. apply skip_split in ES as (b & HB & ->). destruct (c =? 44) eqn:E1.
    + destruct (elemsOf n d r1) as [[l' r2]|] eqn:EE; [|discriminate]. inversion H; subst. apply IHE in EE as (ts & -> & HE & HN2); [|auto].
      exists (a ++ t ++ b ++ 44 :: ts). repeat split; [rewrite <- !app_assoc; cbn [app]; now replace c with 44 by lia|now constructor|].
      unfold deepest in *. cbn [map fold_right]. lia.
    + destruct (c =? 93) eqn:E2; [|discriminate]. inversion H; subst. exists (a ++ t ++ b). repeat split; [rewrite <- !app_assoc; now replace c with 93 by lia|now constructor|].
      unfold deepest in *. cbn [map fold_right]. lia.
  - intros d s m rest HD H. cbn [membersOf] in H. destruct (skipWs s) as [|q r] eqn:ES; [discriminate|]. apply skip_split in ES as (a & HA & ->).
    destruct (q =? 34) eqn:E1; [|discriminate]. replace q with 34 by lia. destruct (chars O r) as [[k r1]|] eqn:EC; [|discriminate]. apply (chars_sound (length r)) in EC as (kt & -> & HK); [|lia].
    destruct (skipWs r1) as [|c r2] eqn:ES; [discriminate|]. apply skip_split in ES as (b & HB & ->). destruct (c =? 58) eqn:E2; [|discriminate]. replace c with 58 by lia.
    destruct (value n d r2) as [[v r3]|] eqn:EV; [|discriminate]. apply IHV in EV as (cc & t & HC & -> & HV & HN); [|auto].
    destruct (skipWs r3) as [|e r4] eqn:ES; [discriminate|]. apply skip_split in ES as (e' & HE & ->). destruct (e =? 44) eqn:E3.
    + destruct (membersOf n d r4) as [[m' r5]|] eqn:EE; [|discriminate]. inversion H; subst. apply IHM in EE as (ts & -> & HM & HN2); [|auto].
      exists (a ++ 34 :: kt ++ 34 :: b ++ 58 :: cc ++ t ++ e' ++ 44 :: ts). repeat split; [repeat (rewrite <- !app_assoc; cbn [app]); now replace e with 44 by lia|now constructor|].
      unfold deepestM in *. cbn [map fold_right]. lia.
    + destruct (e =? 125) eqn:E4; [|discriminate]. inversion H; subst. exists (a ++ 34 :: kt ++ 34 :: b ++ 58 :: cc ++ t ++ e').
      repeat split; [repeat (rewrite <- !app_assoc; cbn [app]); now replace e with 125 by lia|now constructor|].
      unfold deepestM in *. cbn [map fold_right]. lia.
Qed.

(** The first value of a text. *)
Lemma firstValue_complete : forall a t v rest, blanks a -> Value t v -> nesting v <= maxNesting -> (isNum v -> stops rest) ->
  firstValue (a ++ t ++ rest) = Some v.
Proof.
  intros a t v rest HA HV HN HS. unfold firstValue. rewrite (proj1 json_complete t v HV); auto. rewrite !app_length. lia.
Qed.

Lemma firstValue_sound : forall s v, firstValue s = Some v -> exists a t rest, blanks a /\ s = a ++ t ++ rest /\ Value t v /\ nesting v <= maxNesting.
Proof.
  intros s v H. unfold firstValue in H. destruct (value (2 * length s + 2) 0 s) as [[w rest]|] eqn:E; [|discriminate]. inversion H; subst.
  apply json_sound in E; [|vm_compute; discriminate]. destruct E as (a & t & HA & HS & HV & HN). exists a, t, rest. auto.
Qed.
