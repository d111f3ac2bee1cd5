(** The nodes of an accepted tree, one by one. *)
From Coq Require Import String.
From Verif Require Import Base Token Strconv Ext Lexer Ast Env Diag Parser ParseSpec ParseFacts.
Open Scope string_scope.
Open Scope list_scope.
Open Scope Z_scope.

(** [child n m]: [m] is stored in a node-valued field of [n]. *)
Inductive child : node -> node -> Prop :=
| c_entry : forall p i v c, child (NEntry p i v c) v
| c_choice1 : forall p t a b, child (NTypeChoice p t a b) a
| c_choice2 : forall p t a b, child (NTypeChoice p t a b) b
| c_gchoice1 : forall p t a b, child (NGroupChoice p t a b) a
| c_gchoice2 : forall p t a b, child (NGroupChoice p t a b) b
| c_unwrap : forall p t i, child (NUnwrap p t i) i
| c_tag : forall p t a b i, child (NTag p t a b i) i
| c_enum : forall p t v, child (NEnumeration p t v) v
| c_optional : forall p t i, child (NOptional p t i) i
| c_occur : forall p t a b i, child (NNMOccurrence p t a b i) i
| c_size1 : forall p t s ty, child (NSizeOp p t s ty) s
| c_size2 : forall p t s ty, child (NSizeOp p t s ty) ty
| c_regexp : forall p t b r, child (NRegexp p t b r) r
| c_bits1 : forall p t b c, child (NBits p t b c) b
| c_bits2 : forall p t b c, child (NBits p t b c) c
| c_compare1 : forall p t o l r, child (NComparator p t o l r) l
| c_compare2 : forall p t o l r, child (NComparator p t o l r) r
| c_range1 : forall p t a b, child (NRange p t a b) a
| c_range2 : forall p t a b, child (NRange p t a b) b
| c_group : forall p l n, In n l -> child (NGroup p l) n
| c_map : forall p t l n, In n l -> child (NMap p t l) n
| c_array : forall p l n, In n l -> child (NArray p l) n
| c_bad : forall p t b e, child (NBadNode p t b e) b
| c_rule : forall p i v c, child (NRule p i v c) v
| c_root : forall p l n, In n l -> child (NCDDL p l) n.

(** [within n m]: [m] is [n] or below it. *)
Inductive within : node -> node -> Prop :=
| w_self : forall n, within n n
| w_child : forall n m k, child n m -> within m k -> within n k.

Lemma within_trans : forall a b c, within a b -> within b c -> within a c.
Proof. intros a b c H. induction H; intros; auto. eapply w_child; eauto. Qed.

(** Nil pointers that occur in accepted trees. *)
Definition isNil (n : node) : Prop := n = NNil \/ n = NTypedNil KIntegerType.

(** The shape of one node of an accepted tree. [P] holds of the tokens used,
    [T] of the deferred checks. Nothing is said about children here. *)
Inductive Shape (X : Ext) (P : tokInfo -> Prop) (T : task -> Prop) : node -> Prop :=
| S_atom : forall t nx n tk, Atom X t nx n tk -> nx <> COLON \/ tTok t <> IDENT -> P t -> Forall T tk -> Shape X P T n
| S_infix : forall op l t v n tk, Infix op l t v n tk -> P op -> P t -> Forall T tk -> LeftShape X P T l -> Shape X P T n
| S_member : forall op l i v, tTok op = COLON \/ tTok op = ARROW_MAP -> P op -> LeftShape X P T l -> Key op l i ->
    real v -> Shape X P T (NEntry (tPos op) i v None)
| S_memberComment : forall op l i v c, tTok op = COLON \/ tTok op = ARROW_MAP -> P op -> LeftShape X P T l -> Key op l i ->
    real v -> P c -> tTok c = COMMENT -> Shape X P T (NEntry (tPos op) i v (Some (commentOf c)))
| S_noBound : Shape X P T (NRange zeroPos ILLEGAL NNil NNil)
| S_group : forall o l, P o -> Forall (fun n => isGroupEntry n = true) l -> Shape X P T (NGroup (tPos o) l)
| S_array : forall o l, P o -> Forall (fun n => isGroupEntry n = true) l -> Shape X P T (NArray (tPos o) l)
| S_map : forall o l, P o -> Forall real l -> Shape X P T (NMap (tPos o) ILLEGAL l)
| S_optional : forall o n, P o -> real n -> Shape X P T (NOptional (tPos o) OPTIONAL n)
| S_unwrap : forall o n, P o -> real n -> Shape X P T (NUnwrap (tPos o) UNWRAP n)
| S_enum : forall o n, P o -> real n -> tTok o = AMPERSAND -> Shape X P T (NEnumeration (tPos o) AMPERSAND n)
| S_star : forall o t up n, P o -> P t -> Upper t up -> real n ->
    Shape X P T (NNMOccurrence (tPos o) ZERO_OR_MORE (Some (mkUint (tPos o) UINT 0)) up n)
| S_plus : forall o t up n, P o -> P t -> Upper t up -> real n ->
    Shape X P T (NNMOccurrence (tPos o) ONE_OR_MORE (Some (mkUint (tPos o) UINT 1)) up n)
| S_tag : forall o num nx major number n, P o -> Forall P num -> TagNum num nx major number ->
    Shape X P T (NTag (tPos o) HASH major number n)
(** The left operand: a node of the tree, or the name of a member. *)
with LeftShape (X : Ext) (P : tokInfo -> Prop) (T : task -> Prop) : node -> Prop :=
| L_shape : forall n, Shape X P T n -> LeftShape X P T n
| L_key : forall p w, P (mkTok IDENT p w) -> LeftShape X P T (NIdentifier (mkIdent p w)).

(** Every node in [n] has an accepted shape. *)
Definition Shapes (X : Ext) (P : tokInfo -> Prop) (T : task -> Prop) (n : node) : Prop :=
  forall m, within n m -> Shape X P T m \/ isNil m.

Lemma shapes_intro : forall X P T n, Shape X P T n \/ isNil n -> (forall m, child n m -> Shapes X P T m) -> Shapes X P T n.
Proof. intros X P T n H HC m HW. inversion HW; subst; auto. eapply HC; eauto. Qed.

Lemma shapes_nil : forall X P T n, isNil n -> Shapes X P T n.
Proof. intros X P T n H. apply shapes_intro; auto. intros m HC. destruct H; subst; inversion HC. Qed.

(** The left operand is complete, or is a name before a colon. *)
Definition LeftOk (X : Ext) (P : tokInfo -> Prop) (T : task -> Prop) (lst : tokInfo) (n : node) (nx : token) : Prop :=
  Shapes X P T n \/
  (nx = COLON /\ tTok lst <> COMMA /\ exists p w, P (mkTok IDENT p w) /\ n = NIdentifier (mkIdent p w)).

Lemma leftOk_shape : forall X P T lst n nx, LeftOk X P T lst n nx -> real n -> LeftShape X P T n.
Proof.
  intros X P T lst n nx [H|(_ & _ & p & w & H & ->)] [R1 R2]; [|now constructor]. constructor.
  destruct (H n (w_self n)) as [HS|[E|E]]; auto; subst; [congruence|exfalso; eapply R2; eauto].
Qed.

Lemma atom_child : forall X t nx n tk m, Atom X t nx n tk -> child n m -> False.
Proof. intros X t nx n tk m HA HC. inversion HA; subst; inversion HC. Qed.

Lemma infix_child : forall op l t v n tk m, Infix op l t v n tk -> child n m -> m = l \/ m = v \/ isNil m.
Proof.
  intros op l t v n tk m HI HC. unfold isNil. inversion HI; subst; inversion HC; subst; auto.
Qed.

Lemma infix_op : forall op l t v n tk, Infix op l t v n tk -> tTok op <> COLON.
Proof.
  intros op l t v n tk HI E.
  inversion HI; subst; repeat match goal with H : _ \/ _ |- _ => destruct H | H : In (tTok _) _ |- _ => simpl in H end; try congruence; tauto.
Qed.

Lemma filter_forall : forall l, Forall (fun n => isGroupEntry n = true) (filter isGroupEntry l).
Proof. intros l. apply Forall_forall. intros x H. apply filter_In in H. tauto. Qed.

Lemma grammar_shapes : forall X (P : tokInfo -> Prop) (T : task -> Prop),
  (forall u nx n tk, Entry X u nx n tk -> Forall P u -> Forall T tk -> Shapes X P T n) /\
  (forall u nx n tk, Nud X u nx n tk -> Forall P u -> Forall T tk ->
     Shapes X P T n \/ (tTok nx = COLON /\ exists p w, u = [mkTok IDENT p w] /\ n = NIdentifier (mkIdent p w))) /\
  (forall lst l u nx n tk, Tail X lst l u nx n tk -> Forall P u -> Forall T tk -> real l ->
     LeftOk X P T lst l (tTok (nextOf u nx)) -> Shapes X P T n) /\
  (forall es c ns tk, Entries X es c ns tk -> Forall P es -> Forall T tk -> Forall (Shapes X P T) ns /\ Forall real ns).
Proof.
  intros X P T. apply grammar_ind; intros;
    repeat match goal with
    | H : Forall _ (_ ++ _) |- _ => apply Forall_app in H; destruct H
    | H : Forall _ (_ :: _) |- _ => inversion H; clear H; subst
    end.
  - (* entry *)
    apply H3; auto; [eapply Nud_real; eauto|].
    destruct H1 as [H1|(E & p & w & E2 & ->)]; auto.
    + left; exact H1.
    + right. injection E2 as -> ->. split; auto. split; [simpl; congruence|eauto].
  - (* atom *)
    destruct (token_eq_dec (tTok nx) COLON) as [E|E];
      [destruct (token_eq_dec (tTok t) IDENT) as [E2|E2]|].
    + right. split; auto. destruct t as [k p w]; simpl in E2; subst k. exists p, w; split; auto.
      inversion H; subst; try congruence; repeat match goal with H : _ \/ _ |- _ => destruct H end; try congruence.
      all: unfold floatTok in *; simpl in *; intuition congruence.
    + left. apply shapes_intro; [left; eapply S_atom; eauto|intros m HC; exfalso; eapply atom_child; eauto].
    + left. apply shapes_intro; [left; eapply S_atom; eauto|intros m HC; exfalso; eapply atom_child; eauto].
  - left. apply shapes_intro; [left; constructor; auto using filter_forall|].
    intros m HC; inversion HC; subst. destruct H2 as [H2 _]; auto.
    rewrite Forall_forall in H2. apply H2. match goal with H : In _ (filter _ _) |- _ => apply filter_In in H; tauto end.
  - left. apply shapes_intro; [left; constructor; auto using filter_forall|].
    intros m HC; inversion HC; subst. destruct H2 as [H2 _]; auto.
    rewrite Forall_forall in H2. apply H2. match goal with H : In _ (filter _ _) |- _ => apply filter_In in H; tauto end.
  - destruct H2 as [H2 HR]; auto. left. apply shapes_intro; [left; constructor; auto|].
    intros m HC; inversion HC; subst.
    rewrite Forall_forall in H2. apply H2; auto.
  - left. apply shapes_intro; [left; constructor; auto; eapply Entry_real; eauto|].
    intros m HC; inversion HC; subst; auto.
  - left. apply shapes_intro; [left; constructor; auto; eapply Entry_real; eauto|].
    intros m HC; inversion HC; subst; auto.
  - left. apply shapes_intro; [left; constructor; auto; eapply Entry_real; eauto|].
    intros m HC; inversion HC; subst; auto.
  - left. apply shapes_intro; [left; eapply S_star; eauto; eapply Entry_real; eauto|].
    intros m HC; inversion HC; subst; auto.
  - left. apply shapes_intro; [left; eapply S_plus; eauto; eapply Entry_real; eauto|].
    intros m HC; inversion HC; subst; auto.
  - left. apply shapes_intro; [left; eapply S_tag; eauto|].
    intros m HC; inversion HC; subst. apply shapes_nil; left; auto.
  - left. apply shapes_intro; [left; exact (S_tag X P T o num LPAREN major number n H10 H2 H1)|].
    intros m HC; inversion HC; subst; auto.
  - (* end *)
    destruct H3 as [H3|(E & Hl & _)]; auto. destruct H as [H|H]; [contradiction|].
    simpl in E. rewrite E in H. discriminate.
  - (* comma *)
    destruct H4 as [H4|(E & Hl & _)]; auto. simpl in E. congruence.
  - (* infix *)
    assert (HL : LeftShape X P T l) by (eapply leftOk_shape; eauto).
    apply shapes_intro; [left; eapply S_infix; eauto|].
    intros m0 HC. destruct (infix_child _ _ _ _ _ _ _ H2 HC) as [->|[->|HN]]; auto using shapes_nil.
    destruct H6 as [H6|(E & _)]; auto. exfalso. eapply infix_op; eauto.
  - (* member *)
    apply shapes_intro; [left; eapply S_member; eauto using leftOk_shape; eapply Entry_real; eauto|].
    intros m HC; inversion HC; subst; auto.
  - (* member, comment *)
    apply H6; auto; [split; congruence|]. left.
    apply shapes_intro.
    + left; eapply S_memberComment; eauto using leftOk_shape. eapply Entry_real; eauto. apply H4.
    + intros m0 HC; inversion HC; subst; auto.
  - (* no bound *)
    apply H3; auto; [split; congruence|]. left. apply shapes_intro; [left; constructor|].
    intros m0 HC; inversion HC; subst; apply shapes_nil; left; auto.
  - split; constructor.
  - split; constructor; try (apply H2; auto); auto. eapply Entry_real; eauto.
Qed.
