(** environment.Environment as a write-once map. *)
From Verif Require Import Base Token Ast Env Diag Parser ParseFacts ParseFrame.
Open Scope list_scope.
Open Scope Z_scope.

(** The first value listed under a name. *)
Inductive First (w : bytes) : list (bytes * node) -> node -> Prop :=
| First_here : forall v l, First w ((w, v) :: l) v
| First_later : forall w' v' l v, w' <> w -> First w l v -> First w ((w', v') :: l) v.

Definition listed (w : bytes) (l : list (bytes * node)) : Prop := exists v, In (w, v) l.

Lemma beq_iff : forall a b, beq a b = true <-> a = b.
Proof.
  induction a as [|x a IH]; intros [|y b]; simpl; split; intros H; try discriminate; auto.
  - apply andb_true_iff in H as [H1 H2]. apply Z.eqb_eq in H1. apply IH in H2. congruence.
  - inversion H; subst. apply andb_true_iff. split; [apply Z.eqb_refl|now apply IH].
Qed.

Lemma assoc_first : forall w e v, assoc w e = Some v <-> First w e v.
Proof.
  intros w e v. induction e as [|[k x] e IH]; simpl.
  - split; intros H; [discriminate|inversion H].
  - destruct (beq k w) eqn:E.
    + apply beq_iff in E. subst k. split; intros H.
      * inversion H; subst. constructor.
      * inversion H; subst; [reflexivity|congruence].
    + assert (NE : k <> w) by (intros ->; assert (Q : beq w w = true) by (apply beq_iff; reflexivity); congruence).
      rewrite IH. split; intros H; [now constructor|inversion H; subst; [congruence|auto]].
Qed.

Lemma assoc_unlisted : forall w e, assoc w e = None <-> ~ listed w e.
Proof.
  intros w e. induction e as [|[k x] e IH]; simpl.
  - split; auto. intros _ [v []].
  - destruct (beq k w) eqn:E.
    + apply beq_iff in E. subst k. split; [discriminate|]. intros H. exfalso. apply H. exists x. left; auto.
    + assert (NE : k <> w) by (intros ->; assert (Q : beq w w = true) by (apply beq_iff; reflexivity); congruence).
      rewrite IH. split; intros H [v HI]; apply H; exists v; [|right; auto].
      destruct HI as [HI|HI]; auto. inversion HI; congruence.
Qed.

Lemma first_app1 : forall w a b v, First w a v -> First w (a ++ b) v.
Proof. intros w a b v H. induction H; simpl; constructor; auto. Qed.

Lemma first_app2 : forall w a b v, ~ listed w a -> First w b v -> First w (a ++ b) v.
Proof.
  intros w a b v. induction a as [|[k x] a IH]; simpl; intros H HF; auto. constructor.
  - intros ->. apply H. exists x. left; auto.
  - apply IH; auto. intros [y HI]. apply H. exists y. right; auto.
Qed.

Lemma first_fun : forall w l a b, First w l a -> First w l b -> a = b.
Proof. intros w l a b HA HB. apply assoc_first in HA, HB. congruence. Qed.

Lemma first_listed : forall w l v, First w l v -> listed w l.
Proof. intros w l v H. induction H as [v l|w' v' l v N H [x IH]]; [exists v; left; auto|exists x; right; auto]. Qed.

(** [addAll] answers with the first value, the old ones first. *)
Lemma addAll_first : forall l e w v, First w (addAll e l) v <-> First w (e ++ l) v.
Proof.
  induction l as [|[k x] l IH]; intros e w v; simpl; [now rewrite app_nil_r|].
  rewrite IH. unfold add, exists_. destruct (assoc k e) as [y|] eqn:E; cbn [fst].
  - apply assoc_first in E. rewrite <- !assoc_first.
    assert (HA : assoc w (e ++ l) = assoc w (e ++ (k, x) :: l)).
    { clear IH. induction e as [|[k' x'] e IHe]; [inversion E|]. simpl. destruct (beq k' w) eqn:EB; auto.
      inversion E; subst.
      - clear IHe E. induction e as [|[k2 x2] e IHe]; simpl.
        + simpl. now rewrite EB.
        + destruct (beq k2 w); auto.
      - apply IHe; auto. }
    rewrite HA. tauto.
  - rewrite <- app_assoc. simpl. tauto.
Qed.

(** Calls on one environment, and what they answer. *)
Inductive call : Type := CAdd (k : bytes) (v : node) | CGet (k : bytes) | CExists (k : bytes).
Inductive answer : Type := AErr (dup : bool) | ANode (v : node) | ABool (b : bool).

Fixpoint runCalls (e : environment) (l : list call) : list answer :=
  match l with
  | [] => []
  | CAdd k v :: r => let '(e', d) := add e k v in AErr d :: runCalls e' r
  | CGet k :: r => ANode (get e k) :: runCalls e r
  | CExists k :: r => ABool (exists_ e k) :: runCalls e r
  end.

(** The values added so far, oldest first. *)
Definition adds (l : list call) : list (bytes * node) :=
  flat_map (fun c => match c with CAdd k v => [(k, v)] | _ => [] end) l.

(** [Answer before c a]: what the call [c] answers after the calls [before]. *)
Inductive Answer (before : list call) : call -> answer -> Prop :=
| An_new : forall k v, ~ listed k (adds before) -> Answer before (CAdd k v) (AErr false)
| An_dup : forall k v, listed k (adds before) -> Answer before (CAdd k v) (AErr true)
| An_get : forall k v, First k (adds before) v -> Answer before (CGet k) (ANode v)
| An_nil : forall k, ~ listed k (adds before) -> Answer before (CGet k) (ANode NNil)
| An_yes : forall k, listed k (adds before) -> Answer before (CExists k) (ABool true)
| An_no : forall k, ~ listed k (adds before) -> Answer before (CExists k) (ABool false).

Lemma runCalls_spec : forall l e before, (forall w v, assoc w e = Some v <-> First w (adds before) v) ->
  forall pre c post, l = pre ++ c :: post -> exists a, nth_error (runCalls e l) (length pre) = Some a /\ Answer (before ++ pre) c a.
Proof.
  induction l as [|c0 l IH]; intros e before HE pre c post E; [destruct pre; discriminate|].
  assert (HN : forall w, assoc w e = None -> ~ listed w (adds before)).
  { intros w H [v HI]. assert (HL : exists x, assoc w (adds before) = Some x).
    { destruct (assoc w (adds before)) eqn:EA; eauto. apply assoc_unlisted in EA. exfalso. apply EA. exists v; auto. }
    destruct HL as [x HL]. apply assoc_first in HL. apply HE in HL. congruence. }
  assert (HS : forall w v, assoc w e = Some v -> listed w (adds before)).
  { intros w v H. apply HE in H. eapply first_listed; eauto. }
  destruct pre as [|c1 pre]; simpl in E; injection E as -> E.
  - rewrite app_nil_r. destruct c as [k v|k|k]; simpl.
    + unfold add, exists_. destruct (assoc k e) eqn:EA; simpl; eexists; (split; [reflexivity|]).
      * apply An_dup; eauto.
      * apply An_new; eauto.
    + unfold get. destruct (assoc k e) eqn:EA; simpl; eexists; (split; [reflexivity|]).
      * apply An_get. now apply HE.
      * apply An_nil; eauto.
    + unfold exists_. destruct (assoc k e) eqn:EA; simpl; eexists; (split; [reflexivity|]).
      * apply An_yes; eauto.
      * apply An_no; eauto.
  - assert (EQ : before ++ c1 :: pre = (before ++ [c1]) ++ pre) by (now rewrite <- app_assoc). rewrite EQ.
    destruct c1 as [k v|k|k]; cbn [runCalls length nth_error].
    + destruct (add e k v) as [e' d] eqn:EA. cbn [nth_error]. apply IH with (post := post); auto.
      intros w x. unfold adds. rewrite flat_map_app. fold (adds before). cbn [flat_map app].
      rewrite <- addAll_first. unfold addAll. cbn [fold_left fst snd].
      assert (EW : forall w y, assoc w e = Some y <-> assoc w (adds before) = Some y).
      { intros w0 y. rewrite HE, assoc_first. tauto. }
      rewrite <- assoc_first. unfold add, exists_ in *.
      assert (EO : forall w, assoc w e = assoc w (adds before)).
      { intros w0. destruct (assoc w0 e) as [y|] eqn:E1; [symmetry; now apply EW|].
        destruct (assoc w0 (adds before)) as [y|] eqn:E2; auto. apply EW in E2. congruence. }
      rewrite <- EO. destruct (assoc k e) as [y|] eqn:Ek; inversion EA; subst; cbn [fst]; [now rewrite EO|].
      assert (AP : forall a, assoc w (a ++ [(k, v)]) = match assoc w a with Some z => Some z | None => assoc w [(k, v)] end).
      { induction a as [|[k3 v3] a IHa]; simpl; auto. destruct (beq k3 w); auto. }
      rewrite !AP, EO. tauto.
    + apply IH with (post := post); auto. intros w x. unfold adds. rewrite flat_map_app. simpl. rewrite app_nil_r. apply HE.
    + apply IH with (post := post); auto. intros w x. unfold adds. rewrite flat_map_app. simpl. rewrite app_nil_r. apply HE.
Qed.
