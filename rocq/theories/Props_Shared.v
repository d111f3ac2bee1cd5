(** Property C109: lexers over slices of one array. *)
From Coq Require Import String.
From Verif Require Import Base Token Ext SliceModel SliceProofs Lexer LexerProofs LexHang Shared Props_Lexer.
Open Scope string_scope.
Open Scope list_scope.
Open Scope Z_scope.

(** ** Specification *)

(** The call leaves alone what the lexer made for [s] reads; [own] is the array it was given
    if [s] had no room. The last cell may be made a space again. *)
Definition spares (s : slice) (own : nat) (a : act) : Prop :=
  match a with
  | ANew t _ => sArr t <> own /\ ((sLen t < sCap t)%nat -> (sLen s < sCap s)%nat -> sArr t = sArr s -> ~ (sOff s <= sOff t + sLen t < sOff s + sLen s)%nat)
  | AScan _ => True
  | AWrite a k _ => a <> own /\ ((sLen s < sCap s)%nat -> a = sArr s -> ~ (sOff s <= k <= sOff s + sLen s)%nat)
  end.

(** The tokens lexer number [i] returned. *)
Definition told (i : nat) (o : list (nat * tokInfo)) : list tokInfo := map snd (filter (fun x => Nat.eqb (fst x) i) o).

(** How often it was called. *)
Definition calls (i : nat) (l : list act) : nat := length (filter (fun a => match a with AScan j => Nat.eqb j i | _ => false end) l).

(** The same token, or the same way to fail. *)
Definition answers (i : nat) (a : res (world * list (nat * tokInfo))) (b : res (tokInfo * lexer)) : Prop :=
  match a, b with
  | Ok (_, o), Ok (t, _) => o = [(i, t)]
  | Panic, Panic | Hang, Hang | NoFuel, NoFuel => True
  | _, _ => False
  end.

(** ** Scanning does not touch the source *)

Lemma loop_src : forall c n l l', loopNext c n l = Ok l' -> src l' = src l.
Proof. induction n as [|n IH]; intros l l' H; cbn [loopNext] in H; destruct (c (chr l)); try discriminate; try congruence. apply IH in H. now rewrite H, next_src. Qed.

Lemma skip_src : forall n l l', skipWhitespace n l = Ok l' -> src l' = src l.
Proof.
  induction n as [|n IH]; intros l l' H; cbn [skipWhitespace] in H; destruct (isSpace (chr l)); try discriminate; try congruence.
  apply IH in H. rewrite H, next_src. destruct (chr l =? 10); auto. apply (addLine_same l (offset l)).
Qed.

Lemma string_src : forall n l l', stringLoop n l = Ok l' -> src l' = src l.
Proof.
  induction n as [|n IH]; intros l l' H; cbn [stringLoop] in H; (destruct (_ || _); [injection H as <-; reflexivity|]); (destruct (chr l =? 34); [injection H as <-; apply next_src|]); try discriminate.
  apply IH in H. now rewrite H, next_src.
Qed.

Lemma number_src : forall X n tk l tk' l', numberLoop X n tk l = Ok (tk', l') -> src l' = src l.
Proof.
  induction n as [|n IH]; intros tk l tk' l' H; cbn [numberLoop] in H; destruct (_ || _); try discriminate; try congruence. apply IH in H. now rewrite H, next_src.
Qed.

Lemma number_scan_src : forall X l tk s l', scanNumber X l = Ok (tk, s, l') -> src l' = src l.
Proof.
  assert (B : forall c p l tk s l', scanBaseDigits c p l = Ok (tk, s, l') -> src l' = src l).
  { intros c p l tk s l' H. unfold scanBaseDigits in H. bind_ok H. bind_ok H. injection H as _ _ <-. eapply loop_src; eauto. }
  assert (D : forall X o l tk s l', scanDecimal X o l = Ok (tk, s, l') -> src l' = src l).
  { intros X o l tk s l' H. unfold scanDecimal in H. bind_ok H. destruct a as [t l1]. bind_ok H. injection H as _ _ <-. eapply number_src; eauto. }
  intros X l tk s l' H. unfold scanNumber in H. destruct (_ && _); [|eapply D; eauto].
  destruct (chr (next l) =? 120); [apply B in H; now rewrite H, !next_src|]. destruct (chr (next l) =? 98); [apply B in H; now rewrite H, !next_src|].
  destruct (chr (next l) =? 111); [apply B in H; now rewrite H, !next_src|]. apply D in H. now rewrite H, next_src.
Qed.

Lemma third : forall (A B C : Type) (a a' : A) (b b' : B) (c c' : C), Ok (a, b, c) = Ok (a', b', c') -> c = c'.
Proof. congruence. Qed.

Lemma default_src : forall X c l tk s l', scanDefault X c l = Ok (tk, s, l') -> src l' = src l.
Proof.
  intros X c l tk s l' H. unfold scanDefault in H. destruct (punct c); [apply third in H; subst; reflexivity|].
  destruct (c =? 59). { bind_ok H. destruct a as [x y]. apply third in H; subst. unfold scanComment in E. bind_ok E. bind_ok E. injection E as _ <-. eapply loop_src; eauto. }
  destruct (c =? 61). { destruct (chr l =? 62); apply third in H; subst; rewrite ?next_src; reflexivity. }
  destruct (c =? 47). { destruct (chr l =? 61); [|destruct (_ && _); [|destruct (chr l =? 47)]]; apply third in H; subst; rewrite ?next_src; reflexivity. }
  destruct (c =? 46). { destruct (_ && _); [apply third in H; subst; rewrite !next_src; reflexivity|]. destruct (chr l =? 46); [apply third in H; subst; rewrite next_src; reflexivity|].
    destruct (uniIsLetter X (chr l)); [|apply third in H; subst; reflexivity]. bind_ok H. destruct a as [x y]. apply third in H; subst. unfold scanControlOp in E. bind_ok E. bind_ok E. injection E as _ <-. eapply loop_src; eauto. }
  destruct (c =? 34). { bind_ok H. destruct a as [x y]. apply third in H; subst. unfold scanString in E. bind_ok E. bind_ok E. injection E as _ <-. eapply string_src; eauto. }
  destruct (c =? EOFch); apply third in H; subst; reflexivity.
Qed.

Lemma scan_src : forall X l t l', scan X l = Ok (t, l') -> src l' = src l.
Proof.
  intros X l t l' H. unfold scan in H. bind_ok H. apply skip_src in E. bind_ok H. destruct a0 as [[tk s] l1]. injection H as _ <-. rewrite <- E. clear E.
  destruct (isIdentifierStart (chr a)).
  - bind_ok E0. destruct a0 as [x y]. apply third in E0; subst. unfold scanIdentifier in E. bind_ok E. bind_ok E. injection E as _ <-. eapply loop_src; eauto.
  - destruct (isDigit (chr a)); [eapply number_scan_src; eauto|]. apply default_src in E0. now rewrite E0, next_src.
Qed.

(** ** What a lexer reads *)

Lemma nth_upd : forall l k x j, (j < length l)%nat -> nth j (update l k x) 0 = if Nat.eqb j k then x else nth j l 0.
Proof.
  induction l as [|y l IH]; intros k x j H; [cbn in H; lia|]. destruct k as [|k]; cbn [update firstn skipn app]; [destruct j; reflexivity|].
  destruct j as [|j]; [reflexivity|]. cbn [nth Nat.eqb]. apply (IH k x j). cbn in H. lia.
Qed.

Lemma len_upd : forall l k x, (length l <= length (update l k x))%nat.
Proof. intros l k x. unfold update. rewrite app_length, firstn_length. cbn [length]. rewrite skipn_length. lia. Qed.

Lemma reads_upd : forall l k x off len, (off + len <= length l)%nat -> (~ (off <= k < off + len)%nat \/ nth k l 0 = x) ->
  firstn len (skipn off (update l k x)) = firstn len (skipn off l).
Proof.
  intros l k x off len H C. pose proof (len_upd l k x) as L. apply nth_ext_z; [rewrite !firstn_length, !skipn_length; lia|].
  intros i Hi. rewrite firstn_length in Hi. rewrite !nth_firstn, !nth_skipn, nth_upd by lia. destruct (Nat.eqb_spec (off + i) k) as [E|E]; auto. destruct C as [C|C]; [lia|congruence].
Qed.

Lemma hget_hset : forall h a b v, hget (hset h a v) b = if Nat.eqb a b then v else hget h b.
Proof. intros. unfold hget, hset. cbn [find fst]. destruct (Nat.eqb a b); reflexivity. Qed.

Lemma nth_put : forall (A : Type) (l : list A) i x j, nth_error (put i x l) j = if Nat.eqb i j then match nth_error l j with Some _ => Some x | None => None end else nth_error l j.
Proof. induction l as [|y l IH]; intros [|i] x [|j]; cbn [put nth_error Nat.eqb]; auto; now destruct (Nat.eqb i j). Qed.

Section one.
Variables (X : Ext) (s : slice) (own i : nat) (v' : slice) (c : bytes).
(** The slice the lexer keeps. *)
Hypothesis kept : ((sLen s < sCap s)%nat /\ v' = mkSlice (sArr s) (sOff s) (S (sLen s)) (sCap s) /\ sArr s <> own) \/ (~ (sLen s < sCap s)%nat /\ sArr v' = own).

Record Inv (w : world) (l : lexer) : Prop := mkInv {
  i_view : exists v, nth_error (wViews w) i = Some v /\ vSlice v = v' /\ through (wMem w) v = l;
  i_text : contents (wMem w) v' = c ++ [32];
  i_len : sLen v' = S (length c);
  i_room : (sOff v' + sLen v' <= length (hget (wMem w) (sArr v')))%nat;
  i_free : (own < wFree w)%nat /\ (sArr v' < wFree w)%nat }.

Lemma through_eta : forall h v l, src l = contents h v -> through h (mkView v l) = l.
Proof. intros h v [a b cc d e f g] H. cbn [src] in H. subst. reflexivity. Qed.

Lemma last_cell : forall w l, Inv w l -> nth (sOff v' + length c) (hget (wMem w) (sArr v')) 0 = 32.
Proof.
  intros w l [_ T L R _]. unfold contents in T. assert (H : nth (length c) (firstn (sLen v') (skipn (sOff v') (hget (wMem w) (sArr v')))) 0 = 32) by (rewrite T, app_nth2, Nat.sub_diag by lia; reflexivity).
  rewrite nth_firstn, nth_skipn in H by lia. exact H.
Qed.

(** Memory that shows the lexer the same. *)
Lemma inv_mem : forall w l h f vs, Inv w l -> (wFree w <= f)%nat -> nth_error vs i = nth_error (wViews w) i ->
  (hget h (sArr v') = hget (wMem w) (sArr v') \/ exists k x, hget h (sArr v') = update (hget (wMem w) (sArr v')) k x /\
    (~ (sOff v' <= k < sOff v' + sLen v')%nat \/ nth k (hget (wMem w) (sArr v')) 0 = x)) -> Inv (mkWorld h f vs) l.
Proof.
  intros w l h f vs [V T L R F] HF HV HM.
  assert (C : contents h v' = contents (wMem w) v').
  { unfold contents. destruct HM as [->|(k & x & -> & K)]; [reflexivity|]. now apply reads_upd. }
  constructor; cbn [wMem wFree wViews]; auto; [|congruence| |lia].
  - destruct V as (v & V1 & V2 & V3). exists v. rewrite HV. split; auto. split; auto. rewrite <- V3. unfold through. rewrite V2, C. reflexivity.
  - destruct HM as [->|(k & x & -> & K)]; [exact R|]. pose proof (len_upd (hget (wMem w) (sArr v')) k x). lia.
Qed.

Lemma inv_step : forall a w l w' o, Inv w l -> spares s own a -> step X a w = Ok (w', o) ->
  exists l', scans X (calls i [a]) l = Ok (told i o, l') /\ Inv w' l'.
Proof.
  intros a w l w' o I S E. destruct a as [t extra|j|a k x]; cbn [step] in E.
  - unfold newLexerBuffer, append1 in E. exists l. destruct S as [S1 S2]. destruct (Nat.ltb_spec (sLen t) (sCap t)) as [L|L]; injection E as <- <-; (split; [reflexivity|]); apply (inv_mem w l); auto.
    + rewrite nth_error_app1; auto. apply nth_error_Some. destruct I as [(v & -> & _) _ _ _ _]. discriminate.
    + rewrite hget_hset. destruct (Nat.eqb_spec (sArr t) (sArr v')) as [EA|EA]; [|now left]. right. rewrite EA. exists (sOff t + sLen t)%nat, 32. split; [reflexivity|].
      pose proof (last_cell w l I) as LC. pose proof (i_len w l I) as LL. destruct kept as [(K1 & K2 & K3)|(K1 & K2)]; [|congruence]. assert (Q1 : sArr v' = sArr s) by (rewrite K2; reflexivity); assert (Q2 : sOff v' = sOff s) by (rewrite K2; reflexivity); assert (Q3 : sLen v' = S (sLen s)) by (rewrite K2; reflexivity). rewrite Q1 in EA. specialize (S2 L K1 EA).
      destruct (Nat.eq_dec (sOff t + sLen t) (sOff s + sLen s)) as [Q|Q]; [right; rewrite Q, <- Q2; replace (sLen s) with (length c) by lia; exact LC|left; lia].
    + rewrite nth_error_app1; auto. apply nth_error_Some. destruct I as [(v & -> & _) _ _ _ _]. discriminate.
    + left. rewrite hget_hset. destruct (Nat.eqb_spec (wFree w) (sArr v')) as [EA|EA]; auto. destruct I as [_ _ _ _ I]. lia.
  - destruct (i_view w l I) as (v & V1 & V2 & V3). unfold calls. cbn [filter]. destruct (Nat.eqb_spec j i) as [->|N].
    + rewrite V1, V3 in E. cbn [length scans]. destruct (scan X l) as [[u l1]| | |] eqn:ES; cbn [rbind] in E |- *; try discriminate. injection E as <- <-. exists l1. unfold told. cbn [filter fst map snd]. rewrite Nat.eqb_refl. split; [reflexivity|].
      assert (SL : src l = c ++ [32]) by (rewrite <- V3; unfold through; cbn [src]; rewrite V2; apply (i_text w l I)).
      destruct I as [_ T L R F]. constructor; cbn [wMem wFree wViews]; auto. exists (mkView (vSlice v) l1). rewrite nth_put, Nat.eqb_refl, V1. split; [reflexivity|]. split; [exact V2|].
      apply through_eta. rewrite (scan_src _ _ _ _ ES), V2. congruence.
    + exists l. destruct (nth_error (wViews w) j) as [y|]; [|injection E as <- <-; split; [reflexivity|exact I]].
      destruct (scan X (through (wMem w) y)) as [[u l1]| | |]; cbn [rbind] in E; try discriminate. injection E as <- <-. unfold told. cbn [filter fst map snd]. destruct (Nat.eqb_spec j i); [contradiction|]. split; [reflexivity|].
      apply (inv_mem w l); auto. rewrite nth_put. destruct (Nat.eqb_spec j i); [contradiction|reflexivity].
  - injection E as <- <-. exists l. split; [reflexivity|]. destruct S as [S1 S2]. apply (inv_mem w l); auto. rewrite hget_hset. destruct (Nat.eqb_spec a (sArr v')) as [->|N]; [|now left].
    right. exists k, x. split; [reflexivity|]. left. destruct kept as [(K1 & K2 & K3)|(K1 & K2)]; [|congruence]. assert (Q1 : sArr v' = sArr s) by (rewrite K2; reflexivity); assert (Q2 : sOff v' = sOff s) by (rewrite K2; reflexivity); assert (Q3 : sLen v' = S (sLen s)) by (rewrite K2; reflexivity). specialize (S2 K1 Q1). lia.
Qed.

Lemma scans_then : forall n m l ts l' us l'', scans X n l = Ok (ts, l') -> scans X m l' = Ok (us, l'') -> scans X (n + m) l = Ok (ts ++ us, l'').
Proof.
  induction n as [|n IH]; intros m l ts l' us l'' H K; cbn [scans Nat.add] in *; [injection H as <- <-; exact K|].
  destruct (scan X l) as [[t l1]| | |]; cbn [rbind] in *; try discriminate. destruct (scans X n l1) as [[vs l2]| | |] eqn:E; cbn [rbind] in H; try discriminate. injection H as <- <-.
  rewrite (IH _ _ _ _ _ _ E K). reflexivity.
Qed.

Lemma inv_acts : forall l w x w' o, Inv w x -> Forall (spares s own) l -> acts X l w = Ok (w', o) -> exists y, scans X (calls i l) x = Ok (told i o, y) /\ Inv w' y.
Proof.
  induction l as [|a l IH]; intros w x w' o I F E; cbn [acts] in E; [injection E as <- <-; exists x; auto|].
  destruct (step X a w) as [[w1 o1]| | |] eqn:E1; cbn [rbind] in E; try discriminate. destruct (acts X l w1) as [[w2 o2]| | |] eqn:E2; cbn [rbind] in E; try discriminate. injection E as <- <-.
  destruct (inv_step _ _ _ _ _ I (Forall_inv F) E1) as (y & Y1 & Y2). destruct (IH _ _ _ _ Y2 (Forall_inv_tail F) E2) as (z & Z1 & Z2).
  exists z. split; auto. replace (calls i (a :: l)) with (calls i [a] + calls i l)%nat by (unfold calls; cbn [filter]; destruct a as [| j |]; try reflexivity; destruct (Nat.eqb j i); reflexivity).
  replace (told i (o1 ++ o2)) with (told i o1 ++ told i o2) by (unfold told; now rewrite filter_app, map_app). eapply scans_then; eauto.
Qed.

Lemma inv_next : forall w l, Inv w l -> answers i (step X (AScan i) w) (scan X l).
Proof.
  intros w l I. destruct (i_view w l I) as (v & V1 & V2 & V3). cbn [step]. rewrite V1, V3. destruct (scan X l) as [[t l']| | |]; cbn [rbind answers]; auto.
Qed.
End one.

(** ** The theorem *)

(** C109. A lexer returns the tokens of the text its slice had when it was made, whatever other lexers do and the caller
    writes, as long as nothing in its slice is written; and if the slice had no room, whatever is written. *)
Theorem C109_apart : forall X w s extra l w' o, sliceOk (wMem w) s -> (sArr s < wFree w)%nat -> Forall (spares s (wFree w)) l ->
  acts X (ANew s extra :: l) w = Ok (w', o) ->
  let i := length (wViews w) in
  exists y, scans X (calls i l) (newLexer (contents (wMem w) s)) = Ok (told i o, y) /\ answers i (step X (AScan i) w') (scan X y).
Proof.
  intros X w s extra l w' o HO HA F E i. cbn [acts step] in E. pose proof (C12_caller_buffer (wFree w) extra (wMem w) s HO) as K. assert (NA : wFree w <> sArr s) by lia. specialize (K NA).
  destruct (newLexerBuffer (wFree w) extra (wMem w) s) as [h v'] eqn:EN. destruct K as (K1 & _). cbn [rbind] in E.
  match type of E with rbind (acts X l ?w1) _ = _ => set (w1' := w1) in E end. destruct (acts X l w1') as [[w2 o2]| | |] eqn:E2; cbn [rbind app] in E; try discriminate. injection E as <- <-.
  set (c := contents (wMem w) s) in *. assert (LC : length c = sLen s) by (unfold c, contents; destruct HO; rewrite firstn_length, skipn_length; lia).
  assert (K : (((sLen s < sCap s)%nat /\ v' = mkSlice (sArr s) (sOff s) (S (sLen s)) (sCap s) /\ sArr s <> wFree w) \/ (~ (sLen s < sCap s)%nat /\ sArr v' = wFree w)) /\
    sLen v' = S (sLen s) /\ (sOff v' + sLen v' <= length (hget h (sArr v')))%nat /\ (sArr v' < S (wFree w))%nat).
  { destruct HO as [O1 O2]. unfold newLexerBuffer, append1 in EN. destruct (Nat.ltb_spec (sLen s) (sCap s)) as [L|L]; injection EN as <- <-; cbn [sArr sLen sOff]; rewrite hget_hset, Nat.eqb_refl.
    - split; [left; auto|]. split; [reflexivity|]. pose proof (len_upd (hget (wMem w) (sArr s)) (sOff s + sLen s) 32). split; lia.
    - split; [right; split; [lia|reflexivity]|]. split; [reflexivity|]. fold c. rewrite app_length. cbn [length]. split; lia. }
  destruct K as (KA & KB & KC & KD).
  assert (I : Inv (wFree w) i v' c w1' (newLexer c)).
  { constructor; unfold w1'; cbn [wMem wFree wViews]; auto; try congruence; try (split; lia). eexists. unfold i. rewrite nth_error_app2, Nat.sub_diag by lia. split; [reflexivity|]. cbn [vSlice]. split; [reflexivity|].
    unfold newLexer. rewrite <- K1. apply through_eta. now rewrite next_src. }
  destruct (inv_acts X s (wFree w) i v' c KA l w1' (newLexer c) w2 o2 I F E2) as (y & Y1 & Y2). exists y. split; [exact Y1|]. now apply (inv_next X (wFree w) i v' c).
Qed.

(** ** Examples *)

(** Two pieces of one array with a byte between them, scanned in turn, while the caller
    writes to the first one. *)
Definition pieces : bytes := str "ab=cd;ef=gh" ++ [10].
Definition world0 : world := mkWorld [(0%nat, pieces)] 1 [].
Definition first : slice := mkSlice 0 0 5 12.
Definition second : slice := mkSlice 0 6 5 6.
Definition turns : list act := [ANew first 0; AScan 1; AScan 0; AWrite 0 4 33; AScan 0; AScan 1; AScan 0].

Definition texts (r : res (world * list (nat * tokInfo))) (i : nat) : option (list bytes) :=
  match r with Ok (_, o) => Some (map tLit (told i o)) | _ => None end.

Example C109_ex : sliceOk (wMem world0) second /\ (sArr second < wFree world0)%nat /\ Forall (spares second (wFree world0)) turns /\
  texts (acts X0 (ANew second 0 :: turns) world0) 0 = Some [str "ef"; str "="; str "gh"] /\
  texts (acts X0 (ANew second 0 :: turns) world0) 1 = Some [str "ab"; str "="].
Proof.
  split; [vm_compute; split; lia|]. split; [vm_compute; lia|]. split; [|split; vm_compute; reflexivity].
  repeat (apply Forall_cons; [cbn [spares sArr sOff sLen sCap first second wFree world0]; first [exact I | split; lia]|]). apply Forall_nil.
Qed.

(** Pieces that share no byte but touch: making the lexer of the left one spoils the first
    byte of the right one. The identifier the right one then returns is no identifier. *)
Theorem C109_adjacent_refuted : exists w s t l, sliceOk (wMem w) s /\ sliceOk (wMem w) t /\ sArr s = sArr t /\ (sOff t + sLen t <= sOff s)%nat /\
  contents (wMem w) s = str "cd" /\ l = [ANew s 0; ANew t 0; AScan 0] /\
  exists w' tk, acts X0 l w = Ok (w', [(0%nat, tk)]) /\ tTok tk = IDENT /\ tLit tk = str " d".
Proof.
  exists (mkWorld [(0%nat, str "abcd;")] 1 []), (mkSlice 0 2 2 3), (mkSlice 0 0 2 5). eexists. split; [vm_compute; split; lia|]. split; [vm_compute; split; lia|]. split; [reflexivity|]. split; [vm_compute; lia|].
  split; [reflexivity|]. split; [reflexivity|]. do 2 eexists. split; [vm_compute; reflexivity|]. split; reflexivity.
Qed.

(** The same calls on slices with the same text: whether the lexer sees what the caller
    writes afterwards depends on the capacity of the slice. *)
Theorem C109_capacity_refuted : exists w s t, sliceOk (wMem w) s /\ sliceOk (wMem w) t /\ contents (wMem w) s = contents (wMem w) t /\ sCap s <> sCap t /\
  sArr s = sArr t /\ sOff s = sOff t /\
  texts (acts X0 [ANew s 0; AWrite 0 1 99; AScan 0] w) 0 = Some [str "ac"] /\ texts (acts X0 [ANew t 0; AWrite 0 1 99; AScan 0] w) 0 = Some [str "ab"].
Proof.
  exists (mkWorld [(0%nat, str "ab;")] 1 []), (mkSlice 0 0 2 3), (mkSlice 0 0 2 2). split; [vm_compute; split; lia|]. split; [vm_compute; split; lia|]. repeat split; try (vm_compute; reflexivity). vm_compute. discriminate.
Qed.
