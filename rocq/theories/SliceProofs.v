From Verif Require Import Base SliceModel.

Lemma hget_same : forall h a v, hget (hset h a v) a = v.
Proof. intros. unfold hget, hset. simpl. now rewrite Nat.eqb_refl. Qed.

Lemma hget_other : forall h a b v, a <> b -> hget (hset h a v) b = hget h b.
Proof. intros. unfold hget, hset. simpl. apply Nat.eqb_neq in H. now rewrite H. Qed.

Lemma update_length : forall l i x, (i < length l)%nat -> length (update l i x) = length l.
Proof. intros. unfold update. rewrite app_length. cbn [length]. rewrite firstn_length, skipn_length. lia. Qed.

Lemma update_nth : forall l i x j d, (i < length l)%nat ->
  nth j (update l i x) d = if Nat.eqb j i then x else nth j l d.
Proof.
  intros l i x j d H. unfold update.
  assert (HL : length (firstn i l) = i) by (rewrite firstn_length; lia).
  destruct (Nat.eqb_spec j i) as [->|N].
  - rewrite app_nth2 by lia. rewrite HL, Nat.sub_diag. reflexivity.
  - destruct (le_lt_dec i j) as [L|L].
    + rewrite app_nth2 by lia. rewrite HL. destruct (j - i)%nat eqn:E; [lia|]. cbn [nth].
      rewrite <- (firstn_skipn (S i) l) at 2. 
      assert (HL2 : length (firstn (S i) l) = S i) by (rewrite firstn_length; lia).
      rewrite app_nth2 by lia. rewrite HL2. f_equal. lia.
    + rewrite app_nth1 by lia. rewrite <- (firstn_skipn i l) at 2. rewrite app_nth1 by lia. reflexivity.
Qed.

Lemma contents_length : forall h v, sliceOk h v -> length (contents h v) = sLen v.
Proof. intros h v [H1 H2]. unfold contents. rewrite firstn_length, skipn_length. lia. Qed.

Lemma nth_ext_z : forall (a b : bytes), length a = length b -> 
  (forall i, (i < length a)%nat -> nth i a 0 = nth i b 0) -> a = b.
Proof. intros a b HL HN. apply (nth_ext a b 0 0); auto. Qed.

Lemma nth_firstn : forall (l : bytes) n i, (i < n)%nat -> nth i (firstn n l) 0 = nth i l 0.
Proof.
  intros l n. revert l. induction n; intros l i H; [lia|]. destruct l; [reflexivity|].
  destruct i; simpl; auto. apply IHn. lia.
Qed.

Lemma nth_skipn : forall (l : bytes) n i, nth i (skipn n l) 0 = nth (n + i) l 0.
Proof.
  intros l n. revert l. induction n; intros l i; auto. destruct l; [destruct i; reflexivity|]. simpl. apply IHn.
Qed.

Lemma contents_nth : forall h v i, (i < sLen v)%nat -> nth i (contents h v) 0 = nth (sOff v + i) (hget h (sArr v)) 0.
Proof. intros. unfold contents. rewrite nth_firstn by auto. apply nth_skipn. Qed.

(** Appending with room: one cell changes. *)
Lemma append_room : forall fresh extra h v x, sliceOk h v -> (sLen v < sCap v)%nat ->
  let '(h', v') := append1 fresh extra h v x in
  contents h' v' = contents h v ++ [x] /\ (forall a, a <> sArr v -> hget h' a = hget h a) /\ length (hget h' (sArr v)) = length (hget h (sArr v)) /\ (forall i, nth i (hget h' (sArr v)) 0 =
     if Nat.eqb i (sOff v + sLen v) then x else nth i (hget h (sArr v)) 0).
Proof.
  intros fresh extra h v x [O1 O2] HR. unfold append1.
  apply Nat.ltb_lt in HR as HR'. rewrite HR'.
  assert (HI : (sOff v + sLen v < length (hget h (sArr v)))%nat) by lia.
  split; [|split; [|split]].
  - apply nth_ext_z.
    + unfold contents. cbn [sLen sOff sArr]. rewrite hget_same, app_length, !firstn_length, !skipn_length, update_length by lia.
      cbn [length]. lia.
    + intros i Hi. unfold contents in Hi. cbn [sLen sOff sArr] in Hi.
      rewrite hget_same, firstn_length, skipn_length, update_length in Hi by lia.
      rewrite contents_nth by (simpl; lia). cbn [sOff sArr]. rewrite hget_same, update_nth by lia.
      assert (CL : length (contents h v) = sLen v) by (apply contents_length; split; auto).
      destruct (Nat.eqb_spec (sOff v + i) (sOff v + sLen v)).
      * assert (i = sLen v) by lia. subst i. rewrite app_nth2 by lia. rewrite CL, Nat.sub_diag. reflexivity.
      * rewrite app_nth1 by lia. rewrite contents_nth by lia. reflexivity.
  - intros a Ha. apply hget_other. auto.
  - rewrite hget_same. apply update_length; lia.
  - intros i. rewrite hget_same. apply update_nth. lia.
Qed.

(** Appending without room: a new array, nothing else changes. *)
Lemma append_noroom : forall fresh extra h v x, sliceOk h v -> sLen v = sCap v ->
  let '(h', v') := append1 fresh extra h v x in
  contents h' v' = contents h v ++ [x] /\ (forall a, a <> fresh -> hget h' a = hget h a).
Proof.
  intros fresh extra h v x HO HR. unfold append1. rewrite HR, Nat.ltb_irrefl. split.
  - unfold contents at 1. cbn [sLen sOff sArr]. rewrite hget_same. simpl skipn.
    pose proof (contents_length h v HO) as CL. rewrite HR in CL.
    replace (contents h v ++ x :: repeat 0 extra) with ((contents h v ++ [x]) ++ repeat 0 extra)
      by (rewrite <- app_assoc; reflexivity).
    rewrite firstn_app. rewrite app_length, CL. simpl length.
    replace (S (sCap v) - (sCap v + 1))%nat with 0%nat by lia. rewrite app_nil_r.
    apply firstn_all2. rewrite app_length. simpl. lia.
  - intros a Ha. apply hget_other. auto.
Qed.
