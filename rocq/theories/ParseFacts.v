(** Facts about the grammar of ParseSpec.v. *)
From Coq Require Import String.
From Verif Require Import Base Token Strconv Ext Lexer Ast Env Diag Parser ParseSpec.
Open Scope string_scope.
Open Scope list_scope.
Open Scope Z_scope.

Lemma teq_true : forall a b, teq a b = true <-> a = b.
Proof. intros a b. unfold teq. destruct (token_eq_dec a b); intuition congruence. Qed.
Lemma teq_false : forall a b, teq a b = false <-> a <> b.
Proof. intros a b. unfold teq. destruct (token_eq_dec a b); intuition congruence. Qed.
Lemma teq_refl : forall a, teq a a = true.
Proof. intros a. now apply teq_true. Qed.

(** A node that is neither nil nor a typed nil. *)
Definition real (n : node) : Prop := n <> NNil /\ forall k, n <> NTypedNil k.

Lemma last_indep : forall {A} (l : list A) a b, l <> [] -> last l a = last l b.
Proof. induction l as [|x l IH]; intros; [congruence|]. simpl. destruct l; auto. apply IH. congruence. Qed.

Lemma lastOf_cons : forall t b u, lastOf (t :: b) u = lastOf b t.
Proof. intros t b u. unfold lastOf. destruct b as [|x b]; auto. change (last (x :: b) u = last (x :: b) t). now apply last_indep. Qed.

Lemma lastOf_app : forall a t b u, lastOf (a ++ t :: b) u = lastOf b t.
Proof. induction a as [|x a IH]; intros t b u; simpl app; rewrite lastOf_cons; auto. Qed.

Lemma lastOf_snoc : forall a c u, lastOf (a ++ [c]) u = c.
Proof. intros. rewrite (lastOf_app a c [] u). reflexivity. Qed.

Ltac split_all := repeat match goal with |- _ /\ _ => split end.

(** Shape facts proved by induction over derivations. *)
Lemma grammar_shape : forall X,
  (forall u nx n tk, Entry X u nx n tk -> u <> [] /\ real n /\ forall t r, u = t :: r -> over (tTok (lastOf r t)) (tTok nx)) /\
  (forall u nx n tk, Nud X u nx n tk -> u <> [] /\ real n /\
     (forall t r, u = t :: r -> tTok t <> COMMENT /\
        (precedence (tTok t) = 0 \/ over (tTok (lastOf r t)) (tTok nx)))) /\
  (forall lst l u nx n tk, Tail X lst l u nx n tk -> real l -> real n /\ over (tTok (lastOf u lst)) (tTok nx)) /\
  (forall es c ns tk, Entries X es c ns tk -> Forall real ns).
Proof.
  intros X. apply grammar_ind.
  - intros cms t u tl nx n tk m tk' HC HN [IN1 [IN2 IN3]] HT IT. destruct (IT IN2) as [I1 I2].
    split; [destruct cms; discriminate|]. split; auto. intros t0 r E.
    destruct cms as [|c cms]; simpl in E; inversion E; subst.
    + destruct tl as [|y tl]; [rewrite app_nil_r; exact I2|].
      rewrite lastOf_cons in I2. rewrite lastOf_app. exact I2.
    + destruct tl as [|y tl].
      * rewrite app_nil_r. rewrite lastOf_app. exact I2.
      * rewrite lastOf_cons in I2. rewrite lastOf_app. change (t :: u ++ y :: tl) with ((t :: u) ++ y :: tl) .
        rewrite lastOf_app. exact I2.
  - intros t nx n tk HA. split; [discriminate|]. split.
    + inversion HA; subst; split; intros; discriminate.
    + intros t0 r E. inversion E; subst. inversion HA; subst; cbn [tTok]; (split; [try discriminate|auto]); try tauto;
        unfold floatTok in *; simpl in *; intuition (subst; try discriminate; auto).
  - intros o c es nx ns tk Ho Hc HE IE. split; [discriminate|]. split; [split; intros; discriminate|].
    intros t r E. inversion E; subst. rewrite Ho. split; [discriminate|left; reflexivity].
  - intros o c es nx ns tk Ho Hc HE IE. split; [discriminate|]. split; [split; intros; discriminate|].
    intros t r E. inversion E; subst. rewrite Ho. split; [discriminate|left; reflexivity].
  - intros o c es nx ns tk Ho Hc HE IE. split; [discriminate|]. split; [split; intros; discriminate|].
    intros t r E. inversion E; subst. rewrite Ho. split; [discriminate|left; reflexivity].
  - intros o e nx n tk Ho HE [I1 [I2 I3]]. split; [discriminate|]. split; [split; intros; discriminate|].
    intros t r E. inversion E; subst. rewrite Ho. split; [discriminate|right].
    destruct r as [|y r]; [congruence|]. rewrite lastOf_cons. auto.
  - intros o e nx n tk Ho HE [I1 [I2 I3]]. split; [discriminate|]. split; [split; intros; discriminate|].
    intros t r E. inversion E; subst. rewrite Ho. split; [discriminate|right].
    destruct r as [|y r]; [congruence|]. rewrite lastOf_cons. auto.
  - intros o e nx n tk Ho HE [I1 [I2 I3]]. split; [discriminate|]. split; [split; intros; discriminate|].
    intros t r E. inversion E; subst. rewrite Ho. split; [discriminate|right].
    destruct r as [|y r]; [congruence|]. rewrite lastOf_cons. auto.
  - intros o t e nx n up tk Ho HU HE [I1 [I2 I3]]. split; [discriminate|]. split; [split; intros; discriminate|].
    intros t0 r E. inversion E; subst. rewrite Ho. split; [discriminate|right]. rewrite lastOf_cons. auto.
  - intros o t e nx n up tk Ho HU HE [I1 [I2 I3]]. split; [discriminate|]. split; [split; intros; discriminate|].
    intros t0 r E. inversion E; subst. rewrite Ho. split; [discriminate|right]. rewrite lastOf_cons. auto.
  - intros o num nx major number Ho Hn HG. split; [discriminate|]. split; [split; intros; discriminate|].
    intros t r E. inversion E; subst. rewrite Ho. split; [discriminate|left; reflexivity].
  - intros. split; [discriminate|]. split; [split; intros; discriminate|].
    intros t r E. inversion E; subst. rewrite H. split; [discriminate|left; reflexivity].
  - intros lst l nx HO Hr. split; auto.
  - intros lst l c nx H1 H2 Hr. split; auto. left. rewrite lastOf_cons. exact H2.
  - intros lst l op t e nx v m tk tk' H1 HE [I1 [I2 I3]] HI Hr. split.
    + inversion HI; subst; split; intros; discriminate.
    + rewrite !lastOf_cons. auto.
  - intros lst l op t e nx i v tk H1 H2 HK HE [I1 [I2 I3]] HN Hr. split; [split; intros; discriminate|].
    rewrite !lastOf_cons. auto.
  - intros lst l op t e c tl nx i v m tk tk' H1 H2 HK HE [I1 [I2 I3]] HN HT IT Hr.
    destruct IT as [J1 J2]; [split; intros; discriminate|]. split; auto.
    rewrite !lastOf_cons, lastOf_app. exact J2.
  - intros lst l op tl nx m tk H1 H2 HB HT IT Hr. destruct IT as [J1 J2]; [split; intros; discriminate|].
    split; auto. rewrite lastOf_cons. exact J2.
  - constructor.
  - intros e es c n ns tk tk' HE [I1 [I2 I3]] HS IS. constructor; auto.
Qed.

Lemma Entry_real : forall X u nx n tk, Entry X u nx n tk -> real n.
Proof. intros. eapply (proj1 (grammar_shape X)); eauto. Qed.
Lemma Entry_over : forall X t r nx n tk, Entry X (t :: r) nx n tk -> over (tTok (lastOf r t)) (tTok nx).
Proof. intros. eapply (proj1 (grammar_shape X)); eauto. Qed.
Lemma Entry_ne : forall X u nx n tk, Entry X u nx n tk -> u <> [].
Proof. intros. eapply (proj1 (grammar_shape X)); eauto. Qed.
Lemma Nud_real : forall X u nx n tk, Nud X u nx n tk -> real n.
Proof. intros X u nx n tk H. apply (proj1 (proj2 (grammar_shape X))) in H. tauto. Qed.
Lemma Nud_over : forall X t r nx n tk, Nud X (t :: r) nx n tk ->
  tTok t <> COMMENT /\ (precedence (tTok t) = 0 \/ over (tTok (lastOf r t)) (tTok nx)).
Proof. intros X t r nx n tk H. apply (proj1 (proj2 (grammar_shape X))) in H. destruct H as (_ & _ & H). eauto. Qed.
Lemma Tail_real : forall X lst l u nx n tk, Tail X lst l u nx n tk -> real l -> real n.
Proof. intros X lst l u nx n tk H Hr. apply (proj1 (proj2 (proj2 (grammar_shape X)))) in H; tauto. Qed.

(** Positions of nodes: where [Start] points. *)
Definition startOk (P : position -> Prop) (n : node) : Prop := forall s, node_start n = Ok s -> P s.

Lemma grammar_start : forall X (P : position -> Prop),
  (forall u nx n tk, Entry X u nx n tk -> Forall (fun t => P (tPos t)) u -> startOk P n) /\
  (forall u nx n tk, Nud X u nx n tk -> Forall (fun t => P (tPos t)) u -> startOk P n) /\
  (forall lst l u nx n tk, Tail X lst l u nx n tk -> startOk P l -> Forall (fun t => P (tPos t)) u -> startOk P n) /\
  (forall es c ns tk, Entries X es c ns tk -> True).
Proof.
  intros X P. apply grammar_ind; auto; intros;
    repeat match goal with
    | H : Forall _ (_ ++ _) |- _ => apply Forall_app in H; destruct H
    | H : Forall _ (_ :: _) |- _ => inversion H; clear H; subst
    end.
  - match goal with H : startOk P n -> _ |- _ => apply H; auto end.
  - match goal with H : Atom _ _ _ _ _ |- _ => inversion H; subst end; intros s Hs; simpl in Hs; inversion Hs; subst; auto.
  - intros s Hs; simpl in Hs; inversion Hs; subst; auto.
  - intros s Hs; simpl in Hs; inversion Hs; subst; auto.
  - intros s Hs; simpl in Hs; inversion Hs; subst; auto.
  - intros s Hs; simpl in Hs; inversion Hs; subst; auto.
  - intros s Hs; simpl in Hs; inversion Hs; subst; auto.
  - intros s Hs; simpl in Hs; inversion Hs; subst; auto.
  - intros s Hs; simpl in Hs; inversion Hs; subst; auto.
  - intros s Hs; simpl in Hs; inversion Hs; subst; auto.
  - intros s Hs; simpl in Hs; inversion Hs; subst; auto.
  - intros s Hs; simpl in Hs; inversion Hs; subst; auto.
  - match goal with H : Infix _ _ _ _ _ _ |- _ => inversion H; subst end; intros s Hs; simpl in Hs; auto; try discriminate;
      try (match goal with H : Lower _ _ |- _ => inversion H; subst end; inversion Hs; subst; auto).
  - match goal with H : Key _ _ _ |- _ => inversion H; subst end; intros s Hs; simpl in Hs; inversion Hs; subst; auto.
  - match goal with H : startOk P (NEntry _ _ _ _) -> _ |- _ => apply H; auto end.
    match goal with H : Key _ _ _ |- _ => inversion H; subst end; intros s Hs; simpl in Hs; inversion Hs; subst; auto.
  - match goal with H : startOk P (NRange _ _ _ _) -> _ |- _ => apply H; auto end.
    intros s Hs; simpl in Hs; discriminate.
Qed.
