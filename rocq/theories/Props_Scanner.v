(** Property C76: the buffer the REPL's scanner shares with the lexer. *)
From Coq Require Import String.
From Verif Require Import Base SliceModel SliceProofs Ext Env Repl Cli Main Scanner Props_Report Props_Main.
Open Scope string_scope.
Open Scope list_scope.
Open Scope Z_scope.

(** ** The data of a scanner *)

Definition data (m : memory) (s : scanner) : bytes :=
  firstn (bEnd s - bStart s) (skipn (bStart s) (hget (mHeap m) (bArr s))).

(** What is still to be cut into lines. *)
Definition pend (m : memory) (s : scanner) : bytes := data m s ++ bRest s.

Record Inv (m : memory) (s : scanner) : Prop := mkInv {
  iLen : length (hget (mHeap m) (bArr s)) = bLen s;
  iArr : (bArr s < mNext m)%nat;
  iOrd : (bStart s <= bEnd s <= bLen s)%nat;
  iMax : Z.of_nat (bLen s) <= 65536;
  iErr : match bErr s with
         | None => True
         | Some SEof => bRest s = [] /\ (bEnd s < bLen s)%nat
         | Some STooLong => False
         end
}.

(** A slice of the scanner's array whose next cell is not among the data. *)
Definition behind (m : memory) (s : scanner) (v : slice) : Prop :=
  sliceOk (mHeap m) v /\ sArr v = bArr s /\ ((sOff v + sLen v < bStart s)%nat \/ (bEnd s <= sOff v + sLen v)%nat).

Lemma data_length : forall m s, Inv m s -> length (data m s) = (bEnd s - bStart s)%nat.
Proof. intros m s [L A O M E]. unfold data. rewrite firstn_length, skipn_length, L. lia. Qed.

Lemma inv_new : forall stdin sizes, Inv newMemory (newScanner stdin sizes).
Proof. intros. constructor; simpl; auto; lia. Qed.

Lemma pend_new : forall stdin sizes, pend newMemory (newScanner stdin sizes) = stdin.
Proof. reflexivity. Qed.

Lemma skipn_plus : forall (l : bytes) i j, skipn i (skipn j l) = skipn (j + i) l.
Proof. intros l i j. revert l. induction j as [|j IH]; intros l; [reflexivity|]. destruct l; [now rewrite !skipn_nil|]. apply IH. Qed.

Lemma firstn_skipn_ext : forall (a b : bytes) i k, length a = length b ->
  (forall j, (i <= j < i + k)%nat -> nth j a 0 = nth j b 0) -> firstn k (skipn i a) = firstn k (skipn i b).
Proof.
  intros a b i k L H. apply (nth_ext _ _ 0 0); [now rewrite !firstn_length, !skipn_length, L|].
  intros n Hn. rewrite firstn_length in Hn. rewrite !nth_firstn by lia. rewrite !nth_skipn. apply H. lia.
Qed.

(** The lexer's write changes nothing the scanner will read. *)
Lemma lexBytes_keeps : forall extra m s v, Inv m s -> behind m s v ->
  Inv (lexBytes extra m v) s /\ pend (lexBytes extra m v) s = pend m s /\ behind (lexBytes extra m v) s v /\
  contents (mHeap (lexBytes extra m v)) v = contents (mHeap m) v.
Proof.
  intros extra m s v I (SO & SA & SP). destruct I as [L A O M E]. unfold lexBytes, newLexerBuffer, append1.
  assert (SL := SO). destruct SL as [SL SC]. rewrite SA, L in SC.
  destruct (Nat.ltb_spec (sLen v) (sCap v)) as [LT|GE]; cbn [fst snd mHeap mNext].
  - set (p := (sOff v + sLen v)%nat) in *. rewrite SA.
    assert (P : (p < length (hget (mHeap m) (bArr s)))%nat) by (rewrite L; lia).
    assert (D : forall i k, (p < i \/ i + k <= p)%nat ->
      firstn k (skipn i (update (hget (mHeap m) (bArr s)) p 32)) = firstn k (skipn i (hget (mHeap m) (bArr s)))).
    { intros i k H. apply firstn_skipn_ext; [now apply update_length|]. intros j Hj. rewrite update_nth by auto.
      destruct (Nat.eqb_spec j p); auto. lia. }
    split; [constructor; cbn [mHeap mNext]; rewrite ?hget_same, ?update_length; auto|].
    split; [unfold pend, data; cbn [mHeap]; rewrite hget_same; f_equal; apply D; lia|].
    split; [|unfold contents; rewrite SA, hget_same; apply D; lia].
    unfold behind. repeat split; auto; cbn [mHeap]; rewrite SA, hget_same, update_length; auto. lia.
  - assert (N : mNext m <> bArr s) by lia. cbn [mHeap].
    split; [constructor; cbn [mHeap mNext]; rewrite ?hget_other; auto; lia|].
    split; [unfold pend, data; cbn [mHeap]; now rewrite hget_other|].
    split; [|unfold contents; rewrite SA, hget_other; auto].
    unfold behind. repeat split; auto; cbn [mHeap]; rewrite SA, hget_other; auto. lia.
Qed.

(** ** Lines *)

Lemma indexLF_some : forall d i, indexLF d = Some i -> exists r, d = firstn i d ++ 10 :: r /\ r = skipn (S i) d /\ ~ In 10 (firstn i d) /\ (i < length d)%nat.
Proof.
  induction d as [|b d IH]; intros i H; simpl in H; [discriminate|]. destruct (b =? 10) eqn:E.
  - injection H as <-. apply Z.eqb_eq in E. subst b. exists d. simpl. repeat split; auto. lia.
  - destruct (indexLF d) as [j|]; [|discriminate]. injection H as <-. destruct (IH j eq_refl) as (r & E1 & E2 & N & L).
    exists r. cbn [firstn skipn app length]. rewrite <- E1. repeat split; auto; [|lia]. intros [K|K]; [lia|auto].
Qed.

Lemma indexLF_none : forall d, indexLF d = None -> ~ In 10 d.
Proof.
  induction d as [|b d IH]; intros H; simpl in H; auto. destruct (b =? 10) eqn:E; [discriminate|].
  destruct (indexLF d); [discriminate|]. intros [K|K]; [lia|]. now apply IH.
Qed.

Lemma scanLines_line : forall l r, ~ In 10 l -> zlen l < 65536 -> scanLines (l ++ 10 :: r) = dropCR l :: scanLines r.
Proof.
  intros l r N L. apply C70_lines. apply Rd_line; auto; [now apply dropCR_spec|]. now apply C70_lines.
Qed.

Lemma scanLines_last : forall l, l <> [] -> ~ In 10 l -> zlen l < 65536 -> scanLines l = [dropCR l].
Proof. intros l NE N L. apply C70_lines. apply Rd_last; auto. now apply dropCR_spec. Qed.

Lemma scanLines_long : forall l r, ~ In 10 l -> 65536 <= zlen l -> scanLines (l ++ r) = [].
Proof.
  intros l r N L. destruct (cut_first r) as [C|(a & b & -> & C)].
  - apply C70_lines. rewrite <- (app_nil_r (l ++ r)). apply Rd_long; auto.
    + rewrite in_app_iff. tauto.
    + unfold zlen in *. rewrite app_length. lia.
  - apply C70_lines. rewrite app_assoc. apply Rd_long; [rewrite in_app_iff; tauto|unfold zlen in *; rewrite app_length; lia|]. right. now exists b.
Qed.

Lemma cutCR_spec : forall h v, sliceOk h v -> contents h (cutCR h v) = dropCR (contents h v) /\ sliceOk h (cutCR h v) /\
  sArr (cutCR h v) = sArr v /\ sOff (cutCR h v) = sOff v /\ (sLen (cutCR h v) <= sLen v)%nat /\ (sLen v <= S (sLen (cutCR h v)))%nat.
Proof.
  intros h v OK. assert (LC := contents_length h v OK). destruct OK as [O1 O2]. unfold cutCR, dropCR.
  destruct (Nat.ltb_spec 0 (sLen v)) as [P|P]; cbn [andb].
  - destruct (last (contents h v) 0 =? 13) eqn:E; [|repeat split; auto].
    cbn [sArr sOff sLen sCap]. split; [|repeat split; cbn [sLen sCap sOff sArr]; auto; lia].
    rewrite removelast_firstn_len, LC. unfold contents. cbn [sArr sOff sLen]. rewrite firstn_firstn. f_equal. lia.
  - assert (Z0 : sLen v = 0%nat) by lia. unfold contents. rewrite Z0. cbn [firstn last]. repeat split; auto; lia.
Qed.

(** ** One token *)

Lemma tryToken_some : forall m s v s1, Inv m s -> tryToken m s = Some (v, s1) ->
  scanLines (pend m s) = contents (mHeap m) v :: scanLines (pend m s1) /\ Inv m s1 /\ behind m s1 v /\
  (length (pend m s1) < length (pend m s))%nat.
Proof.
  intros m s v s1 I H. assert (DL := data_length m s I). assert (II := I). destruct I as [L A O M E]. unfold tryToken in H.
  set (w := mkSlice (bArr s) (bStart s) (bEnd s - bStart s) (bLen s - bStart s)) in *.
  assert (WOK : sliceOk (mHeap m) w) by (split; cbn [sLen sCap sOff sArr w]; rewrite ?L; lia).
  assert (WC : contents (mHeap m) w = data m s) by reflexivity.
  destruct (_ || _); [|discriminate]. unfold scanLine in H. rewrite WC in H.
  destruct (_ && (sLen w =? 0)%nat) eqn:E0; [discriminate|].
  destruct (indexLF (data m s)) as [i|] eqn:EI.
  - injection H as <- <-. destruct (indexLF_some _ _ EI) as (r & E1 & E2 & N & LI). rewrite DL in LI.
    cbn [sArr sOff sLen sCap w]. set (t := mkSlice (bArr s) (bStart s) i (bLen s - bStart s)) in *.
    assert (TOK : sliceOk (mHeap m) t) by (split; cbn [sLen sCap sOff sArr w t]; rewrite ?L; lia).
    destruct (cutCR_spec _ _ TOK) as (C1 & C2 & C3 & C4 & C5 & C6).
    assert (CT : contents (mHeap m) t = firstn i (data m s)).
    { unfold data, contents. cbn [sLen sOff sArr t w]. rewrite firstn_firstn. f_equal. lia. }
    assert (D1 : forall s2, s2 = mkScanner (bArr s) (bLen s) (bStart s + S i) (bEnd s) (bErr s) (bRest s) (bSizes s) -> data m s2 = r).
    { intros s2 ->. rewrite E2. unfold data. cbn [bStart bEnd bArr]. rewrite skipn_firstn_comm, skipn_plus. f_equal. lia. }
    split; [|split; [|split]].
    + rewrite C1, CT. unfold pend. rewrite (D1 _ eq_refl). rewrite E1 at 1. rewrite <- app_assoc. cbn [app bRest].
      apply scanLines_line; auto. unfold zlen. rewrite firstn_length. lia.
    + constructor; cbn [bArr bLen bStart bEnd bErr bRest]; auto. lia.
    + split; auto. split; [now rewrite C3|]. cbn [bStart bEnd]. left. rewrite C4. cbn [sOff t w] in *. cbn [sLen t] in C5. lia.
    + unfold pend. rewrite (D1 _ eq_refl), !app_length, E2, skipn_length, DL. cbn [bRest]. lia.
  - destruct (bErr s) as [e|] eqn:EE; [|discriminate]. destruct e; [|contradiction]. destruct E as [ER EB]. injection H as <- <-.
    cbn [andb] in E0. destruct (cutCR_spec _ _ WOK) as (C1 & C2 & C3 & C4 & C5 & C6).
    apply Nat.eqb_neq in E0. cbn [sLen w] in E0.
    set (s1 := mkScanner (bArr s) (bLen s) (bStart s + (bEnd s - bStart s)) (bEnd s) (Some SEof) (bRest s) (bSizes s)) in *.
    cbn [sLen w]. fold s1 w.
    assert (P1 : pend m s1 = []).
    { unfold pend, data. cbn [bStart bEnd s1 bRest sLen w]. rewrite ER, app_nil_r. replace (bEnd s - _)%nat with 0%nat by lia. reflexivity. }
    assert (NE : data m s <> []) by (intros K; rewrite K in DL; simpl in DL; lia).
    split; [|split; [|split]].
    + rewrite P1, C1, WC. unfold pend. rewrite ER, app_nil_r. apply scanLines_last; auto; [now apply indexLF_none|]. unfold zlen. rewrite DL. lia.
    + constructor; cbn [bArr bLen bStart bEnd bErr bRest s1 sLen w]; auto. lia.
    + split; auto. split; [now rewrite C3|]. unfold s1. cbn [bStart bEnd]. cbn [sLen w] in *. rewrite C4. cbn [sOff w]. lia.
    + rewrite P1. unfold pend. rewrite app_length, DL. cbn [length]. lia.
Qed.

Lemma tryToken_none : forall m s, Inv m s -> tryToken m s = None -> ~ In 10 (data m s) /\ (bErr s <> None -> pend m s = []).
Proof.
  intros m s I H. assert (DL := data_length m s I). destruct I as [L A O M E]. unfold tryToken in H.
  assert (WC : contents (mHeap m) (mkSlice (bArr s) (bStart s) (bEnd s - bStart s) (bLen s - bStart s)) = data m s) by reflexivity.
  destruct (Nat.ltb_spec (bStart s) (bEnd s)) as [LT|GE]; cbn [orb] in H.
  - unfold scanLine in H. rewrite WC in H. cbn [sLen] in H. destruct (bErr s) as [e|] eqn:EE; cbn [andb] in H.
    + replace (bEnd s - bStart s =? 0)%nat with false in H by (symmetry; apply Nat.eqb_neq; lia).
      destruct (indexLF (data m s)); discriminate.
    + destruct (indexLF (data m s)) eqn:EI; [discriminate|]. split; [now apply indexLF_none|congruence].
  - assert (D0 : data m s = []) by (apply length_zero_iff_nil; lia). rewrite D0. split; [auto|].
    destruct (bErr s) as [[|]|]; try tauto. intros _. unfold pend. destruct E as [-> _]. now rewrite D0.
Qed.

(** ** Making room and reading *)

Lemma shift_keeps : forall m s, Inv m s -> bErr s = None -> let '(m1, s1) := shift m s in
  Inv m1 s1 /\ bErr s1 = None /\ data m1 s1 = data m s /\ bRest s1 = bRest s /\ (bEnd s1 = bLen s1 -> bStart s1 = 0%nat).
Proof.
  intros m s I EN. assert (DL := data_length m s I). assert (II := I). destruct I as [L A O M E]. unfold shift.
  destruct (Nat.ltb_spec 0 (bStart s)) as [P|P]; cbn [andb].
  - destruct (_ || _) eqn:EC.
    + fold (data m s). assert (LO : length (overwrite (hget (mHeap m) (bArr s)) (data m s)) = bLen s).
      { unfold overwrite. rewrite app_length, skipn_length, L, DL. lia. }
      split; [constructor; cbn [mHeap mNext bArr bLen bStart bEnd bErr bRest]; rewrite ?hget_same; auto; [lia|now rewrite EN]|].
      cbn [bErr bRest bStart bEnd]. split; auto. split; auto.
      unfold data at 1. cbn [mHeap bArr bStart bEnd]. rewrite hget_same. unfold overwrite. cbn [skipn].
      rewrite firstn_app, <- DL, Nat.sub_0_r, firstn_all, Nat.sub_diag. cbn [firstn]. now rewrite app_nil_r.
    + split; [auto|]. split; [auto|]. split; [auto|]. split; [auto|]. intros K. apply orb_false_iff in EC as [EC _]. apply Nat.eqb_neq in EC. congruence.
  - split; [auto|]. split; [auto|]. split; [auto|]. split; [auto|]. intros _. lia.
Qed.

Lemma grow_keeps : forall m s, Inv m s -> bErr s = None -> (bEnd s = bLen s -> bStart s = 0%nat) ->
  match grow m s with
  | None => 65536 <= zlen (data m s)
  | Some (m1, s1) => Inv m1 s1 /\ bErr s1 = None /\ data m1 s1 = data m s /\ bRest s1 = bRest s /\ (bEnd s1 < bLen s1)%nat
  end.
Proof.
  intros m s I EN S0. assert (DL := data_length m s I). assert (II := I). destruct I as [L A O M E]. unfold grow.
  destruct (Nat.eqb_spec (bEnd s) (bLen s)) as [EQ|NE].
  - specialize (S0 EQ). destruct (maxTokenSize <=? Z.of_nat (bLen s)) eqn:EM; unfold maxTokenSize in *.
    + unfold zlen. rewrite DL. lia.
    + fold (data m s). set (size := Z.min 65536 (if (bLen s =? 0)%nat then startBufSize else 2 * Z.of_nat (bLen s))).
      assert (SZ : Z.of_nat (bLen s) < size <= 65536).
      { unfold size, startBufSize. destruct (Nat.eqb_spec (bLen s) 0); lia. }
      assert (LO : length (overwrite (repeat 0 (Z.to_nat size)) (data m s)) = Z.to_nat size).
      { unfold overwrite. rewrite app_length, skipn_length, repeat_length, DL. lia. }
      split; [constructor; cbn [mHeap mNext bArr bLen bStart bEnd bErr bRest]; rewrite ?hget_same, ?EN; auto; lia|].
      cbn [bErr bRest bStart bEnd bLen]. split; auto. split; [|split; auto; lia].
      unfold data at 1. cbn [mHeap bArr bStart bEnd]. rewrite hget_same. unfold overwrite. cbn [skipn].
      rewrite firstn_app, <- DL, Nat.sub_0_r, firstn_all, Nat.sub_diag. cbn [firstn]. now rewrite app_nil_r.
  - split; [auto|]. split; [auto|]. split; [auto|]. split; [auto|]. lia.
Qed.

Lemma readMore_keeps : forall m s, Inv m s -> bErr s = None -> (bEnd s < bLen s)%nat -> let '(m1, s1) := readMore m s in
  Inv m1 s1 /\ pend m1 s1 = pend m s /\
  ((bErr s1 = None /\ (length (bRest s1) < length (bRest s))%nat) \/ (bErr s1 = Some SEof /\ bRest s = [])).
Proof.
  intros m s I EN R. assert (DL := data_length m s I). assert (II := I). destruct I as [L A O M E]. unfold readMore.
  destruct (bRest s) as [|c rest] eqn:ER.
  - split; [constructor; cbn [bArr bLen bStart bEnd bErr bRest]; auto|]. split; [|right; auto].
    unfold pend, data. cbn [bArr bStart bEnd bRest]. now rewrite ER.
  - rewrite <- ER in *. set (n := Nat.min (bLen s - bEnd s) _). set (a := hget (mHeap m) (bArr s)) in *.
    assert (N1 : (1 <= n <= bLen s - bEnd s)%nat).
    { unfold n. split; [|lia]. apply Nat.min_glb; [lia|]. destruct (bSizes s); [rewrite ER; cbn [length]; lia|lia]. }
    set (chunk := firstn n (bRest s)).
    assert (CL : (1 <= length chunk <= n)%nat) by (unfold chunk; rewrite firstn_length, ER; cbn [length]; lia).
    assert (AL : length (firstn (bEnd s) a ++ chunk ++ skipn (bEnd s + length chunk) a) = bLen s).
    { rewrite !app_length, firstn_length, skipn_length, L. lia. }
    split; [constructor; cbn [mHeap mNext bArr bLen bStart bEnd bErr bRest]; rewrite ?hget_same; auto; lia|].
    split.
    + unfold pend. cbn [bRest]. replace (data m s ++ bRest s) with ((data m s ++ chunk) ++ skipn n (bRest s)) by (rewrite <- app_assoc; f_equal; apply firstn_skipn). f_equal.
      unfold data. cbn [mHeap bArr bStart bEnd]. rewrite hget_same. fold a.
      rewrite skipn_app, firstn_length, L. replace (bStart s - Nat.min (bEnd s) (bLen s))%nat with 0%nat by lia. cbn [skipn].
      rewrite skipn_firstn_comm. rewrite app_assoc.
      assert (HL : length (firstn (bEnd s - bStart s) (skipn (bStart s) a) ++ chunk) = (bEnd s + length chunk - bStart s)%nat).
      { rewrite app_length, firstn_length, skipn_length, L. lia. }
      rewrite <- HL, firstn_app, firstn_all, Nat.sub_diag. cbn [firstn]. now rewrite app_nil_r.
    + left. cbn [bErr bRest]. split; auto. rewrite skipn_length, ER. cbn [length]. lia.
Qed.

(** ** One Scan *)

Lemma scanBuf_spec : forall n m s, Inv m s -> (length (bRest s) + (if bErr s then 1 else 2) <= n)%nat ->
  exists r m1 s1, scanBuf n m s = Ok (r, m1, s1) /\
    match r with
    | None => scanLines (pend m s) = []
    | Some v => scanLines (pend m s) = contents (mHeap m1) v :: scanLines (pend m1 s1) /\ Inv m1 s1 /\ behind m1 s1 v /\
                (length (pend m1 s1) < length (pend m s))%nat
    end.
Proof.
  induction n as [|n IH]; intros m s I F; [destruct (bErr s); lia|]. cbn [scanBuf].
  destruct (tryToken m s) as [[v s1]|] eqn:ET.
  - exists (Some v), m, s1. split; auto. now apply tryToken_some.
  - destruct (tryToken_none m s I ET) as [N P]. destruct (bErr s) as [e|] eqn:EE.
    + exists None. do 2 eexists. split; [reflexivity|]. rewrite P by congruence. reflexivity.
    + pose proof (shift_keeps m s I EE) as HS. destruct (shift m s) as [m1 s1]. destruct HS as (I1 & E1 & D1 & R1 & Z1).
      pose proof (grow_keeps m1 s1 I1 E1 Z1) as HG. destruct (grow m1 s1) as [[m2 s2]|].
      * destruct HG as (I2 & E2 & D2 & R2 & L2). pose proof (readMore_keeps m2 s2 I2 E2 L2) as HR.
        destruct (readMore m2 s2) as [m3 s3]. destruct HR as (I3 & P3 & C3).
        assert (PP : pend m3 s3 = pend m s) by (rewrite P3; unfold pend; congruence).
        destruct (IH m3 s3 I3) as (r & m4 & s4 & E4 & H4).
        { rewrite R2, R1 in C3. destruct C3 as [[C4 C5]|[C4 C5]]; rewrite C4; [lia|].
          destruct I3 as [_ _ _ _ K]. rewrite C4 in K. destruct K as [-> _]. cbn [length]. lia. }
        exists r, m4, s4. split; auto. rewrite PP in H4. exact H4.
      * exists None. do 2 eexists. split; [reflexivity|]. unfold pend. apply scanLines_long; auto. congruence.
Qed.

(** ** C76 *)

(** The lines read one after the other through the buffer. The caller makes lexers over each
    line, some before it looks at the line's bytes and some after; [lexers] chooses them (each
    is given by the room its new array gets, should it need one). *)
Definition lexAll (m : memory) (v : slice) (extras : list nat) : memory := fold_left (fun m e => lexBytes e m v) extras m.

Inductive Session (lexers : memory -> slice -> list nat * list nat) : memory -> scanner -> list bytes -> Prop :=
| Ss_end : forall m s m1 s1, scanBuf (scanFuel s) m s = Ok (None, m1, s1) -> Session lexers m s []
| Ss_line : forall m s v m1 s1 before after ls, scanBuf (scanFuel s) m s = Ok (Some v, m1, s1) ->
    lexers m1 v = (before, after) -> Session lexers (lexAll (lexAll m1 v before) v after) s1 ls ->
    Session lexers m s (contents (mHeap (lexAll m1 v before)) v :: ls).

Lemma lexers_keep : forall extras m s v, Inv m s -> behind m s v ->
  Inv (lexAll m v extras) s /\ pend (lexAll m v extras) s = pend m s /\ behind (lexAll m v extras) s v /\
  contents (mHeap (lexAll m v extras)) v = contents (mHeap m) v.
Proof.
  unfold lexAll. induction extras as [|e r IH]; intros m s v I B; cbn [fold_left]; [auto|].
  destruct (lexBytes_keeps e m s v I B) as (I1 & P1 & B1 & C1). destruct (IH _ s v I1 B1) as (I2 & P2 & B2 & C2).
  split; auto. split; [congruence|]. split; [auto|congruence].
Qed.

Lemma fuel_enough : forall s, (length (bRest s) + (if bErr s then 1 else 2) <= scanFuel s)%nat.
Proof. intros s. unfold scanFuel. destruct (bErr s); lia. Qed.

Lemma session_spec : forall lexers m s ls, Session lexers m s ls -> Inv m s -> ls = scanLines (pend m s).
Proof.
  intros lexers. induction 1 as [m s m1 s1 E|m s v m1 s1 before after ls E EL HS IH]; intros I;
    destruct (scanBuf_spec _ m s I (fuel_enough s)) as (r & m2 & s2 & E2 & H2); rewrite E in E2; injection E2 as <- <- <-.
  - now rewrite H2.
  - destruct H2 as (H2 & I2 & B2 & _). destruct (lexers_keep before m1 s1 v I2 B2) as (I3 & P3 & B3 & C3).
    destruct (lexers_keep after _ s1 v I3 B3) as (I4 & P4 & _ & _). rewrite IH by auto. rewrite P4, P3, C3. auto.
Qed.

(** However the input arrives and whatever lexers are made over the lines, the lines read are
    those of the input. *)
Theorem C76_lines : forall lexers stdin sizes ls, Session lexers newMemory (newScanner stdin sizes) ls -> Reads stdin ls.
Proof.
  intros lexers stdin sizes ls H. apply C70_lines. rewrite <- (pend_new stdin sizes). symmetry. apply (session_spec lexers); [auto|apply inv_new].
Qed.

(** Every input is read to its end (or to its first long line), whatever the lexers. *)
Theorem C76_total : forall lexers stdin sizes, exists ls, Session lexers newMemory (newScanner stdin sizes) ls.
Proof.
  intros lexers stdin sizes.
  assert (K : forall n m s, Inv m s -> (length (pend m s) < n)%nat -> exists ls, Session lexers m s ls).
  { induction n as [|n IH]; intros m s I L; [lia|]. destruct (scanBuf_spec _ m s I (fuel_enough s)) as (r & m1 & s1 & E & H).
    destruct r as [v|]; [|eexists; eapply Ss_end; eauto]. destruct H as (_ & I1 & B1 & L1).
    destruct (lexers m1 v) as [before after] eqn:EL.
    destruct (lexers_keep before m1 s1 v I1 B1) as (I2 & P2 & B2 & _). destruct (lexers_keep after _ s1 v I2 B2) as (I3 & P3 & _ & _).
    destruct (IH (lexAll (lexAll m1 v before) v after) s1 I3) as [ls HS]; [rewrite P3, P2; lia|].
    eexists. eapply Ss_line; eauto. }
  apply (K (S (length stdin))); [apply inv_new|]. rewrite pend_new. lia.
Qed.

(** The REPL's transcript and end are those of the lines as values (Main.v, C70 - C72). *)
Lemma replScan_spec : forall X M lex extra fuel e m s, Inv m s -> (length (pend m s) < fuel)%nat ->
  replScan X M lex extra fuel e m s = replLines X M lex e (scanLines (pend m s)).
Proof.
  intros X M lex extra. induction fuel as [|fuel IH]; intros e m s I L; [lia|]. cbn [replScan].
  destruct (scanBuf_spec _ m s I (fuel_enough s)) as (r & m1 & s1 & E & H). rewrite E. destruct r as [v|]; [|now rewrite H].
  destruct H as (H & I1 & B1 & L1). rewrite H. cbn [replLines].
  destruct (replTurn X M lex e (contents (mHeap m1) v)) as [o t].
  set (m2 := if parses (contents (mHeap m1) v) && lex then lexBytes extra m1 v else m1).
  assert (I2 : Inv m2 s1 /\ pend m2 s1 = pend m1 s1 /\ behind m2 s1 v).
  { unfold m2. destruct (_ && _); [|auto]. destruct (lexBytes_keeps extra m1 s1 v I1 B1) as (K1 & K2 & K3 & _). auto. }
  destruct I2 as (I2 & P2 & B2). set (m3 := if parses (contents (mHeap m1) v) then lexBytes extra m2 v else m2).
  assert (I3 : Inv m3 s1 /\ pend m3 s1 = pend m1 s1).
  { unfold m3. destruct (parses _); [|auto]. destruct (lexBytes_keeps extra m2 s1 v I2 B2) as (K1 & K2 & _). split; auto. congruence. }
  destruct I3 as (I3 & P3).
  destruct t as [[e1|]| | |]; auto. rewrite IH by (auto; rewrite P3; lia). rewrite P3. reflexivity.
Qed.

Theorem C76_session : forall X M lex extra stdin sizes, replBuffered X M lex extra stdin sizes = replCmd X M lex stdin.
Proof.
  intros. unfold replBuffered, replCmd. rewrite replScan_spec; [|apply inv_new|rewrite pend_new; lia]. now rewrite pend_new.
Qed.

(** Two lines that arrive in pieces of two and three bytes: the write behind the first one
    replaces the newline in the scanner's own buffer, and the second line is read as it was
    typed. *)
Definition pieces : list nat := [3; 2; 2; 3]%nat.
Definition typed : bytes := str "a = 1" ++ [10] ++ str "b = 2" ++ [13; 10].

Definition firstLine : res (bytes * bytes * bytes) :=
  match scanBuf (scanFuel (newScanner typed pieces)) newMemory (newScanner typed pieces) with
  | Ok (Some v, m, s) =>
    let m1 := lexBytes 7 m v in
    let shown := firstn 7 (hget (mHeap m1) (bArr s)) in
    match scanBuf (scanFuel s) m1 s with
    | Ok (Some w, m2, _) => Ok (contents (mHeap m1) v, shown, contents (mHeap m2) w)
    | _ => Panic
    end
  | _ => Panic
  end.

Example C76_ex : firstLine = Ok (str "a = 1", str "a = 1 b", str "b = 2") /\ Reads typed [str "a = 1"; str "b = 2"].
Proof. split; [vm_compute; reflexivity|apply C70_lines; vm_compute; reflexivity]. Qed.
