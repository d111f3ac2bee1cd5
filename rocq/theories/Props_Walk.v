(** Properties C33-C35: the tree walk. *)
From Coq Require Import String.
From Verif Require Import Base Utf8 Token Ext Strconv StrconvSpec StrconvProofs Lexer LexSpec LexSpec2 LexerProofs LexOne LexSeq
  Ast Env Diag Parser ParseSpec ParseStream ParseFacts ParseSound ParseLoop ParseTop ParseComplete ParseFileC ParseShape ParseSource
  ParseUnique ParseTree ParseLoose Props_Lexer Props_Parser Props_Tree Walk.
Open Scope string_scope.
Open Scope list_scope.
Open Scope Z_scope.

(** ** Specification *)

(** The parts of a node in source order; [None]: Walk does not know the node. *)
Definition notNil (n : node) : list node := match n with NNil => [] | _ => [n] end.
Definition lit (u : option uintLit) : list node := match u with None => [] | Some u => [NUintLiteral u] end.
Definition remark (c : option comment) : list node := match c with None => [] | Some c => [NComment c] end.

Definition parts (n : node) : option (list node) :=
  match n with
  | NCDDL _ l | NGroup _ l | NMap _ _ l | NArray _ l => Some l
  | NRule _ i v c | NEntry _ i v c => Some (NIdentifier i :: notNil v ++ remark c)
  | NTypeChoice _ _ a b | NGroupChoice _ _ a b | NRange _ _ a b => Some (notNil a ++ notNil b)
  | NComparator _ _ _ a b => Some (notNil a ++ notNil b)
  | NSizeOp _ _ size ty => Some (notNil ty ++ notNil size)
  | NRegexp _ _ b r => Some (match b with None => [] | Some (p, t) => [NTstrType p t] end ++ notNil r)
  | NOptional _ _ i | NUnwrap _ _ i => Some (notNil i)
  | NNMOccurrence _ _ a b i | NTag _ _ a b i => Some (lit a ++ lit b ++ notNil i)
  | NIdentifier _ | NComment _ | NBooleanType _ _ | NTstrType _ _ | NTextLiteral _ _ _ | NFloatType _ _ _
  | NFloatLiteral _ _ _ | NUintLiteral _ | NIntegerType _ _ | NNegativeIntegerType _ _ | NIntegerLiteral _ _ _
  | NBstrType _ _ | NBytesType _ _ | NNullType _ _ => Some []
  | NTypedNil k =>
      match k with
      | KIdentifier | KComment | KBooleanType | KTstrType | KTextLiteral | KFloatType | KFloatLiteral | KUintLiteral
      | KIntegerType | KNegativeIntegerType | KIntegerLiteral | KBstrType | KBytesType | KNullType => Some []
      | _ => None
      end
  | NNil | NBooleanLiteral _ _ | NUintType _ _ | NEnumeration _ _ _ | NBits _ _ _ _ | NCommentGroup _ | NBadNode _ _ _ _ => None
  end.

(** Calls made for a node: [Walked visit v n s s' l] when walking [n] with visitor [v]
    takes state [s] to [s'] by the calls [l], in order. *)
Section Spec.
Context {V S : Type} (visit : visitor V S).

Inductive Walked : V -> node -> S -> S -> list (V * node) -> Prop :=
| W_pruned : forall v n s s', visit v n s = Ok (s', None) -> Walked v n s s' [(v, n)]
| W_open : forall v n s s1 v' ps s2 l s3 r, visit v n s = Ok (s1, Some v') -> parts n = Some ps -> WalkedAll v' ps s1 s2 l ->
    visit v' NNil s2 = Ok (s3, r) -> Walked v n s s3 ((v, n) :: l ++ [(v', NNil)])
with WalkedAll : V -> list node -> S -> S -> list (V * node) -> Prop :=
| WA_nil : forall v s, WalkedAll v [] s s []
| WA_cons : forall v n ps s s1 s2 l l', Walked v n s s1 l -> WalkedAll v ps s1 s2 l' -> WalkedAll v (n :: ps) s s2 (l ++ l').

Scheme Walked_ind2 := Induction for Walked Sort Prop
  with WalkedAll_ind2 := Induction for WalkedAll Sort Prop.
Combined Scheme walked_ind from Walked_ind2, WalkedAll_ind2.

(** Walking a list of parts with the model. *)
Fixpoint walkAll (v : V) (l : list node) (s : S) : res S :=
  match l with [] => Ok s | c :: l => s <- walk visit v c s;; walkAll v l s end.

Lemma walkAll_app : forall v a b s, walkAll v (a ++ b) s = (s <- walkAll v a s;; walkAll v b s).
Proof. induction a as [|x a IH]; intros b s; [reflexivity|]. simpl. destruct (walk visit v x s); simpl; auto. Qed.

Lemma walkAll_cons : forall v x l s, walkAll v (x :: l) s = (s <- walkAll v [x] s;; walkAll v l s).
Proof. intros. change (x :: l) with ([x] ++ l). apply walkAll_app. Qed.

Lemma all_walkAll : forall v l s,
  (fix all (l : list node) (s : S) : res S := match l with [] => Ok s | c :: l => s <- walk visit v c s;; all l s end) l s = walkAll v l s.
Proof. induction l as [|x l IH]; intros s; simpl; auto. destruct (walk visit v x s); simpl; auto. Qed.

Definition leafOk (n : node) : bool :=
  match n with NIdentifier _ | NComment _ | NUintLiteral _ | NTstrType _ _ => true | _ => false end.

Lemma leaf_walkAll : forall v n s, leafOk n = true -> walkLeaf visit v n s = walkAll v [n] s.
Proof.
  intros v n s H. destruct n; try discriminate H; unfold walkLeaf; simpl;
    (destruct (visit v _ s) as [[s1 [v'|]]| | |]; simpl; auto; destruct (visit v' NNil s1) as [[s2 r]| | |]; reflexivity).
Qed.

Lemma sub_walkAll : forall v n s, (match n with NNil => Ok s | _ => walk visit v n s end) = walkAll v (notNil n) s.
Proof. intros v n s. destruct n; try reflexivity; unfold notNil; cbn [walkAll]; match goal with |- ?a = rbind ?b _ => change b with a; destruct a; reflexivity end. Qed.

Lemma uint_walkAll : forall v u s, walkUint visit v u s = walkAll v (lit u) s.
Proof. intros v [u|] s; simpl; auto. unfold walkUint. now rewrite leaf_walkAll. Qed.
Lemma comment_walkAll : forall v u s, walkComment visit v u s = walkAll v (remark u) s.
Proof. intros v [u|] s; simpl; auto. unfold walkComment. now rewrite leaf_walkAll. Qed.

(** The model, one node at a time. *)
Lemma walk_eq : forall v n s, walk visit v n s =
  ('(s, r) <- visit v n s;;
   match r with
   | None => Ok s
   | Some v' => match parts n with
                | None => Panic
                | Some ps => s <- walkAll v' ps s;; '(s, _) <- visit v' NNil s;; Ok s
                end
   end).
Proof.
  intros v n s.
  destruct n; cbn [walk]; destruct (visit v _ s) as [[s1 [v'|]]| | |]; cbn [rbind]; try reflexivity; cbn [parts typeOf passKind];
    rewrite ?all_walkAll, ?sub_walkAll; try reflexivity.
  all: try (destruct k; reflexivity).
  all: rewrite ?uint_walkAll.
  all: try (rewrite ?walkAll_app; destruct (walkAll v' _ s1) as [s2| | |]; cbn [rbind]; rewrite ?sub_walkAll; reflexivity).
  all: try (rewrite leaf_walkAll by reflexivity; rewrite (walkAll_cons v' (NIdentifier name) (notNil n ++ _));
    destruct (walkAll v' [NIdentifier name] s1) as [s2| | |]; cbn [rbind]; try reflexivity;
    rewrite sub_walkAll, walkAll_app; destruct (walkAll v' (notNil n) s2); cbn [rbind]; try reflexivity; now rewrite comment_walkAll).
  all: try (rewrite walkAll_app; destruct (walkAll v' (lit _) s1) as [s2| | |]; cbn [rbind]; try reflexivity;
    rewrite uint_walkAll, walkAll_app; destruct (walkAll v' (lit _) s2) as [s3| | |]; cbn [rbind]; try reflexivity; now rewrite sub_walkAll).
  destruct base as [[p' t']|]; cbn [rbind]; [|rewrite sub_walkAll; reflexivity].
  rewrite walkAll_app, leaf_walkAll by reflexivity. destruct (walkAll v' [NTstrType p' t'] s1); cbn [rbind]; try reflexivity. now rewrite sub_walkAll.
Qed.

(** Induction along [parts]. *)
Lemma parts_ind : forall (P : node -> Prop), (forall n, (forall ps, parts n = Some ps -> Forall P ps) -> P n) -> forall n, P n.
Proof.
  intros P H.
  assert (HL : forall n, parts n = Some [] -> P n) by (intros n E; apply H; intros ps E2; rewrite E in E2; inversion E2; constructor).
  assert (HN : forall n, P n -> Forall P (notNil n)) by (intros n Hn; destruct n; repeat constructor; auto).
  assert (HU : forall u, Forall P (lit u)) by (intros [u|]; repeat constructor; apply HL; reflexivity).
  assert (HR : forall u, Forall P (remark u)) by (intros [u|]; repeat constructor; apply HL; reflexivity).
  assert (HI : forall i, P (NIdentifier i)) by (intros i; apply HL; reflexivity).
  fix IH 1. intros n.
  apply H. intros ps E.
  destruct n; cbn [parts] in E; try discriminate E; try (injection E as <-; try (apply Forall_nil)).
  all: try (destruct k; try discriminate E; injection E as <-; constructor; fail).
  all: try (constructor; auto; apply Forall_app; split; auto; fail).
  all: try (repeat (apply Forall_app; split); auto; fail).
  all: try (apply HN; apply IH; fail).
  all: try (destruct base as [[p' t']|]; [constructor; [apply HL; reflexivity|]|]; apply HN; apply IH).
  all: try (match goal with |- Forall _ ?l => induction l as [|x l' IHl]; constructor; [apply IH|exact IHl] end; fail).
Qed.

Lemma walk_sound : forall n v s s', walk visit v n s = Ok s' -> exists l, Walked v n s s' l.
Proof.
  refine (parts_ind _ _). intros n IH v s s' H. rewrite walk_eq in H.
  destruct (visit v n s) as [[s1 [v'|]]| | |] eqn:E1; try discriminate H; cbn [rbind] in H.
  - destruct (parts n) as [ps|] eqn:E2; [|discriminate H]. specialize (IH ps eq_refl).
    assert (HA : forall s1 s2, walkAll v' ps s1 = Ok s2 -> exists l, WalkedAll v' ps s1 s2 l).
    { clear H E1 E2. induction IH as [|x l HP HF IHl]; intros a b H; simpl in H.
      - inversion H; subst. eexists. constructor.
      - destruct (walk visit v' x a) as [a1| | |] eqn:E; try discriminate H. cbn [rbind] in H.
        destruct (HP _ _ _ E) as (l1 & H1). destruct (IHl _ _ H) as (l2 & H2). eexists. econstructor; eauto. }
    destruct (walkAll v' ps s1) as [s2| | |] eqn:E3; try discriminate H. cbn [rbind] in H.
    destruct (visit v' NNil s2) as [[s3 r]| | |] eqn:E4; try discriminate H. inversion H; subst.
    destruct (HA _ _ E3) as (l & HL). eexists. eapply W_open; eauto.
  - inversion H; subst. eexists. apply W_pruned. exact E1.
Qed.

Lemma walk_complete :
  (forall v n s s' l, Walked v n s s' l -> walk visit v n s = Ok s') /\
  (forall v ps s s' l, WalkedAll v ps s s' l -> walkAll v ps s = Ok s').
Proof.
  apply walked_ind; intros.
  - rewrite walk_eq, e. reflexivity.
  - rewrite walk_eq, e. cbn [rbind]. rewrite e0, H. cbn [rbind]. rewrite e1. reflexivity.
  - reflexivity.
  - simpl. rewrite H. exact H0.
Qed.

(** What can be reached without the visitor pruning anything. *)
Inductive Reach : node -> node -> Prop :=
| R_here : forall n, Reach n n
| R_part : forall n ps p m, parts n = Some ps -> In p ps -> Reach p m -> Reach n m.

(** A traversal as a sequence of nodes: the node, its parts, and nil to close it. *)
Inductive Preorder : node -> list node -> Prop :=
| P_node : forall n ps ls, parts n = Some ps -> Forall2 Preorder ps ls -> Preorder n (n :: concat ls ++ [NNil]).

Definition neverPrunes : Prop := forall v n s s' r, n <> NNil -> visit v n s = Ok (s', r) -> r <> None.
Definition neverFails : Prop := forall v n s, exists x, visit v n s = Ok x.
End Spec.

(** ** C35 and C33 *)

(** Exactly the calls of [Walked] are made, for every visitor: a node for which the
    visitor gives nil costs one call, and any other node one call, those of its
    parts with the new visitor, and the closing call. *)
Theorem C35_calls : forall V S (visit : visitor V S) v n s s',
  walk visit v n s = Ok s' <-> exists l, Walked visit v n s s' l.
Proof. intros. split; [apply walk_sound|]. intros (l & H). eapply walk_complete; eauto. Qed.

Theorem C35_pruned : forall V S (visit : visitor V S) v n s s', visit v n s = Ok (s', None) -> walk visit v n s = Ok s'.
Proof. intros. rewrite walk_eq, H. reflexivity. Qed.

(** Pruning one part leaves the rest as it is: the traversal of the parts of a node
    goes on in the state the pruned call left. *)
Theorem C35_rest : forall V S (visit : visitor V S) v n ps s s' l1 m l2, parts n = Some ps -> ps = l1 ++ m :: l2 ->
  forall v' s1 s2 s3, visit v n s = Ok (s1, Some v') -> WalkedAll visit v' l1 s1 s2 [] \/ walkAll visit v' l1 s1 = Ok s2 ->
  visit v' m s2 = Ok (s3, None) ->
  (walk visit v n s = Ok s' <-> exists s4 r, walkAll visit v' l2 s3 = Ok s4 /\ visit v' NNil s4 = Ok (s', r)).
Proof.
  intros V S visit v n ps s s' l1 m l2 HP E v' s1 s2 s3 H1 H2 H3. subst.
  assert (H2' : walkAll visit v' l1 s1 = Ok s2) by (destruct H2 as [H2|H2]; auto; eapply walk_complete; eauto).
  rewrite walk_eq, H1. cbn [rbind]. rewrite HP, walkAll_app, H2'. cbn [rbind walkAll]. rewrite (C35_pruned _ _ _ _ _ _ _ H3). cbn [rbind].
  destruct (walkAll visit v' l2 s3) as [s4| | |]; cbn [rbind].
  - destruct (visit v' NNil s4) as [[s5 r]| | |] eqn:E5; cbn [rbind]; split.
    + intros E; inversion E; subst. eauto.
    + intros (x & r' & Ex & Er). inversion Ex; subst. rewrite E5 in Er. inversion Er; subst. reflexivity.
    + intros E; discriminate E.
    + intros (x & r' & Ex & Er). inversion Ex; subst. rewrite E5 in Er. discriminate Er.
    + intros E; discriminate E.
    + intros (x & r' & Ex & Er). inversion Ex; subst. rewrite E5 in Er. discriminate Er.
    + intros E; discriminate E.
    + intros (x & r' & Ex & Er). inversion Ex; subst. rewrite E5 in Er. discriminate Er.
  - split; [intros E; discriminate E|intros (x & r' & Ex & Er); discriminate Ex].
  - split; [intros E; discriminate E|intros (x & r' & Ex & Er); discriminate Ex].
  - split; [intros E; discriminate E|intros (x & r' & Ex & Er); discriminate Ex].
Qed.

(** On a tree without a nil in a list, a visitor that never prunes a node sees the
    nodes in pre-order, each once, with a closing call for each. *)
Theorem C33_preorder : forall V S (visit : visitor V S) v n s s' l, neverPrunes visit -> (forall m, Reach n m -> m <> NNil) ->
  Walked visit v n s s' l -> Preorder n (map snd l).
Proof.
  intros V S visit v n s s' l HN.
  enough (K : (forall v n s s' l, Walked visit v n s s' l -> (forall m, Reach n m -> m <> NNil) -> Preorder n (map snd l)) /\
              (forall v ps s s' l, WalkedAll visit v ps s s' l -> (forall p m, In p ps -> Reach p m -> m <> NNil) -> exists ls, map snd l = concat ls /\ Forall2 Preorder ps ls)).
  { intros. eapply K; eauto. }
  apply walked_ind; intros.
  - exfalso. eapply HN; [|exact e|reflexivity]. apply H. constructor.
  - destruct H as (ls & E & HF). { intros p m Hp Hm. apply H0. eapply R_part; eauto. }
    cbn [map]. rewrite map_app, E. simpl. econstructor; eauto.
  - exists []. split; auto.
  - destruct H0 as (ls & E & HF). { intros p m Hp. apply H1. right; auto. }
    exists (map snd l0 :: ls). split; [simpl; rewrite map_app, E; reflexivity|]. constructor; auto. apply H. intros m. apply H1. left; auto.
Qed.

(** Only one sequence of nodes is a traversal, so this determines the calls. *)
Theorem C33_unique : forall n l l', Preorder n l -> Preorder n l' -> l = l'.
Proof.
  refine (parts_ind _ _). intros n IH l l' H H'. destruct H as [n ps ls E HF]. inversion H' as [n' ps' ls' E' HF' En El]; subst.
  rewrite E in E'. injection E' as <-. specialize (IH ps E). enough (ls = ls') by congruence.
  clear E H'. revert ls' HF'. induction HF as [|x y ps ls HX HF IHf]; intros ls' HF'; inversion HF'; subst; auto.
  inversion IH; subst. f_equal; auto.
Qed.

(** ** C34 *)

Theorem C34_crash_iff : forall V S (visit : visitor V S) v n s, neverPrunes visit -> neverFails visit -> (forall m, Reach n m -> m <> NNil) ->
  (walk visit v n s = Panic <-> exists m, Reach n m /\ parts m = None) /\ (walk visit v n s = Panic \/ exists s', walk visit v n s = Ok s').
Proof.
  intros V S visit v n s HN HF. revert v s. pattern n. revert n. refine (parts_ind _ _). intros n IH v s HR. rewrite walk_eq.
  destruct (HF v n s) as [[s1 r] E]. rewrite E. cbn [rbind]. destruct r as [v'|]; [|exfalso; eapply HN; eauto; apply HR; constructor].
  destruct (parts n) as [ps|] eqn:EP.
  - specialize (IH ps eq_refl).
    assert (HA : (walkAll visit v' ps s1 = Panic <-> exists p m, In p ps /\ Reach p m /\ parts m = None) /\ (walkAll visit v' ps s1 = Panic \/ exists s', walkAll visit v' ps s1 = Ok s')).
    { assert (HR' : forall p m, In p ps -> Reach p m -> m <> NNil) by (intros p m Hp Hm; apply HR; eapply R_part; eauto). clear E EP HR.
      revert s1. induction IH as [|x l HP HL IHl]; intros s1; simpl.
      - split; [split; [discriminate|intros (p & m & [] & _)]|eauto].
      - destruct (HP v' s1) as [H1 H2]. { intros m. apply HR'. left; auto. }
        destruct H2 as [H2|(s2 & H2)]; rewrite H2; cbn [rbind].
        + split; auto. split; auto. intros _. apply H1 in H2 as (m & A & B). exists x, m. auto.
        + destruct (IHl ltac:(intros p m Hp; apply HR'; right; auto) s2) as [H3 H4]. split; auto. rewrite H3. split.
          * intros (p & m & A & B & C). exists p, m. simpl; auto.
          * intros (p & m & [A|A] & B & C); [|eauto]. subst. exfalso. assert (walk visit v' p s1 = Panic) by (apply H1; eauto). congruence. }
    destruct HA as [H1 [H2|(s2 & H2)]]; rewrite H2; cbn [rbind].
    + split; auto. split; auto. intros _. apply H1 in H2 as (p & m & A & B & C). exists m. split; auto. eapply R_part; eauto.
    + destruct (HF v' NNil s2) as [[s3 r3] E3]. rewrite E3. cbn [rbind]. split; eauto. split; [discriminate|].
      intros (m & A & B). exfalso. assert (walkAll visit v' ps s1 = Panic); [|congruence]. apply H1.
      inversion A as [|? ps' p ? E4 HI HR4]; subst; [congruence|]. rewrite EP in E4. inversion E4; subst. eauto.
  - split; auto. split; auto. intros _. exists n. split; auto. constructor.
Qed.

(** Put together: a tree of known nodes is walked completely, in pre-order. *)
Theorem C33_complete : forall V S (visit : visitor V S) v n s, neverPrunes visit -> neverFails visit ->
  (forall m, Reach n m -> m <> NNil /\ parts m <> None) ->
  exists s' l, walk visit v n s = Ok s' /\ Walked visit v n s s' l /\ Preorder n (map snd l).
Proof.
  intros V S visit v n s HN HF HR. assert (HR1 : forall m, Reach n m -> m <> NNil) by (intros m K; apply HR; auto).
  destruct (C34_crash_iff V S visit v n s HN HF HR1) as [H1 [H2|(s' & H2)]].
  - exfalso. apply H1 in H2 as (m & A & B). apply (proj2 (HR m A)). exact B.
  - destruct (walk_sound visit n v s s' H2) as (l & HL). exists s', l. split; auto. split; auto. eapply C33_preorder; eauto.
Qed.

(** The nodes Walk does not know, in a tree that the parser returned. *)
Inductive Unknown : node -> Prop :=
| U_bool : forall r b, Unknown (NBooleanLiteral r b)
| U_uint : forall r t, Unknown (NUintType r t)
| U_enum : forall p t v, Unknown (NEnumeration p t v)
| U_bits : forall p t b c, Unknown (NBits p t b c)
| U_comments : forall l, Unknown (NCommentGroup l)
| U_bad : forall p t b e, Unknown (NBadNode p t b e).

Definition small (m : node) : Prop := leafOk m = true.

Lemma parts_within : forall n ps p, parts n = Some ps -> In p ps -> small p \/ (child n p /\ p <> NNil) \/ (exists q l, n = NGroup q l \/ n = NArray q l \/ n = NCDDL q l \/ exists t, n = NMap q t l).
Proof.
  intros n ps p E HI. unfold small.
  assert (HN : forall x, In p (notNil x) -> p = x /\ p <> NNil) by (intros x H; destruct x; simpl in H; try contradiction; destruct H as [<-|[]]; split; auto; discriminate).
  assert (HU : forall u, In p (lit u) -> leafOk p = true) by (intros [u|] H; simpl in H; [destruct H as [<-|[]]; auto|contradiction]).
  assert (HM : forall u, In p (remark u) -> leafOk p = true) by (intros [u|] H; simpl in H; [destruct H as [<-|[]]; auto|contradiction]).
  destruct n; cbn [parts] in E; try discriminate E; try (injection E as <-).
  all: try contradiction.
  all: try (destruct k; try discriminate E; injection E as <-; contradiction).
  all: try (right; right; eauto 10; fail).
  all: try (destruct base as [[p' t']|]).
  all: simpl app in HI; try (destruct HI as [HI|HI]; [subst; left; reflexivity|]).
  all: repeat (apply in_app_or in HI; destruct HI as [HI|HI]).
  all: try (left; eauto; fail).
  all: apply HN in HI as [-> HI]; right; left; split; auto; constructor.
Qed.

Lemma small_reach : forall n m, small n -> Reach n m -> small m.
Proof. intros n m H HR. destruct HR as [|n ps p m E HI]; auto. exfalso. destruct n; try discriminate H; inversion E; subst; contradiction. Qed.

(** In a returned tree the parts are the children, and no list has a nil in it. *)
Lemma returned_parts : forall X ts rules, Forall (RuleOf X ts) rules -> forall n ps p, within (NCDDL zeroPos rules) n -> parts n = Some ps ->
  In p ps -> small p \/ (within (NCDDL zeroPos rules) p /\ p <> NNil).
Proof.
  intros X ts rules HR n ps p HW E HI. destruct (parts_within n ps p E HI) as [H|[[H1 H2]|H]]; auto.
  - right. split; auto. eapply within_trans; [exact HW|]; econstructor; [eassumption|constructor].
  - right. assert (HC : child n p) by (destruct H as (q & l & [-> |[-> |[-> |(t & ->)]]]); inversion E; subst; constructor; auto).
    split; [eapply within_trans; [exact HW|]; econstructor; [eassumption|constructor]|].
    destruct (loose_shapes X (fun _ => True) ts rules HR) with (m := n) as [K|[K|[(q & w & _ & K)|[K|K]]]]; auto.
    + apply Forall_forall; auto.
    + subst. inversion E; subst. rewrite Forall_forall in HR. specialize (HR _ HI). intros ->. inversion HR. destruct cms; discriminate.
    + destruct H as (q & l & [-> |[-> |[-> |(t & ->)]]]); inversion K.
    + subst. destruct H as (q' & l & [H|[H|[H|(t & H)]]]); discriminate.
    + destruct H as (q & l & [-> |[-> |[-> |(t & ->)]]]); inversion E; subst;
        inversion K; subst; try (match goal with H : Atom _ _ _ _ _ |- _ => inversion H | H : Infix _ _ _ _ _ _ |- _ => inversion H end; fail);
        match goal with H : Forall _ ps |- _ => rewrite Forall_forall in H; specialize (H _ HI); intros ->; try discriminate H; destruct H; congruence end.
    + destruct K as [-> | ->]; inversion E; subst; contradiction.
Qed.

Lemma returned_reach : forall X ts rules, Forall (RuleOf X ts) rules -> forall n m, Reach n m -> within (NCDDL zeroPos rules) n -> n <> NNil ->
  small m \/ (within (NCDDL zeroPos rules) m /\ m <> NNil).
Proof.
  intros X ts rules HR n m H. induction H as [n|n ps p m E HI H IH]; intros HW HN; auto.
  destruct (returned_parts X ts rules HR n ps p HW E HI) as [HS|[H1 H2]]; auto. left. eapply small_reach; eauto.
Qed.

(** A child is a part, or its parent is unknown to Walk. *)
Lemma child_parts : forall n m, child n m -> parts n = None \/ m = NNil \/ exists ps, parts n = Some ps /\ In m ps.
Proof.
  intros n m H.
  assert (HN : forall x, x = NNil \/ In x (notNil x)) by (intros x; destruct x; simpl; auto).
  destruct H; cbn [parts]; auto; match goal with |- _ \/ ?x = NNil \/ _ => destruct (HN x) as [-> |K]; auto end;
    right; right; eexists; (split; [reflexivity|]); simpl; rewrite ?in_app_iff; auto.
Qed.

Lemma node_nil_dec : forall n : node, n = NNil \/ n <> NNil.
Proof. intros n. destruct n; auto; right; discriminate. Qed.

Lemma within_reach : forall n m, within n m -> n <> NNil -> m = NNil \/ Reach n m \/ exists u, Reach n u /\ parts u = None.
Proof.
  intros n m H. induction H as [n|n m k HC HW IH]; intros HN; [right; left; constructor|].
  destruct (child_parts _ _ HC) as [E|[-> |(ps & E & HI)]].
  - right; right. exists n. split; auto. constructor.
  - left. inversion HW; subst; auto. inversion H.
  - destruct (node_nil_dec m) as [-> |NE]; [left; inversion HW; subst; auto; inversion H|].
    destruct (IH NE) as [H|[H|(u & H1 & H2)]]; auto.
    + right; left. eapply R_part; eauto.
    + right; right. exists u. split; auto. eapply R_part; eauto.
Qed.

(** The tree of every source that ParseFile returns a tree for, diagnostics or not. *)
Theorem C34_returned : forall X s e rules ds p' V S (visit : visitor V S) v st, decodable s ->
  parseSource X (parseFuel s) s e = Ok ((Some (NCDDL zeroPos rules), ds), p') -> neverPrunes visit -> neverFails visit ->
  (walk visit v (NCDDL zeroPos rules) st = Panic <-> exists m, within (NCDDL zeroPos rules) m /\ Unknown m).
Proof.
  intros X s e rules ds p' V S visit v st D H HN HF. destruct (returned_rules _ _ _ _ _ _ D H) as (ts & eof & _ & HR).
  set (root := NCDDL zeroPos rules) in *.
  assert (HRe : forall m, Reach root m -> small m \/ (within root m /\ m <> NNil)) by (intros m K; eapply returned_reach; eauto; [constructor|discriminate]).
  assert (HNN : forall m, Reach root m -> m <> NNil) by (intros m K; destruct (HRe m K) as [K1|[_ K1]]; auto; intros ->; discriminate K1).
  destruct (C34_crash_iff V S visit v root st HN HF HNN) as [-> _]. split.
  - intros (m & K1 & K2). destruct (HRe m K1) as [K3|[K3 K4]]; [destruct m; discriminate|]. exists m. split; auto.
    destruct m; cbn [parts] in K2; try discriminate K2; try constructor; [congruence|].
    destruct (loose_shapes X (fun _ => True) ts rules HR) with (m := NTypedNil k) as [K|[K|[(q & w & _ & K)|[K|K]]]]; auto.
    + apply Forall_forall; auto.
    + discriminate K.
    + inversion K.
    + discriminate K.
    + inversion K as [t1 nx n1 tk0 HAt | op l0 t0 v0 n1 tk0 HI2 | | | | | | | | | | | |]; subst; [inversion HAt|inversion HI2].
    + destruct K as [K|K]; inversion K; subst; discriminate K2.
  - intros (m & K1 & K2). destruct (within_reach _ _ K1) as [-> |[K|K]]; [discriminate|inversion K2| |exact K]. exists m. split; auto. destruct K2; reflexivity.
Qed.

(** In terms of the source: without [true], [false], [uint], [&], [.bits] and comments the
    tree can be walked. *)
Theorem C34_plain_sources : forall X s e rules ds p' ts eof V S (visit : visitor V S) v st, decodable s ->
  parseSource X (parseFuel s) s e = Ok ((Some (NCDDL zeroPos rules), ds), p') -> tokens X s ts eof ->
  (forall t, In t ts -> ~ In (tTok t) [TRUE; FALSE; AMPERSAND; BITS; COMMENT] /\ ~ (tTok t = UINT /\ tLit t = str "uint")) ->
  neverPrunes visit -> neverFails visit -> exists st', walk visit v (NCDDL zeroPos rules) st = Ok st'.
Proof.
  intros X s e rules ds p' ts eof V S visit v st D H HT HP HN HF. destruct (returned_rules _ _ _ _ _ _ D H) as (ts' & eof' & HT' & HR).
  destruct (str_fun _ _ _ _ HT _ _ HT') as [<- _]. clear HT'.
  assert (HNN : forall m, Reach (NCDDL zeroPos rules) m -> m <> NNil).
  { intros m K. destruct (returned_reach _ _ _ HR _ _ K) as [K1|[_ K1]]; auto; [constructor|discriminate|intros ->; discriminate K1]. }
  destruct (C34_crash_iff V S visit v (NCDDL zeroPos rules) st HN HF HNN) as [_ [K|K]]; auto. exfalso.
  apply (C34_returned _ _ _ _ _ _ V S visit v st D H HN HF) in K as (m & K1 & K2).
  destruct (loose_shapes X (fun t => In t ts) ts rules HR) with (m := m) as [K|[K|[(q & w & _ & K)|[K|K]]]]; auto.
  - apply Forall_forall; auto.
  - subst. inversion K2.
  - destruct K as [c | cms NE HP2 HC | |]; try (inversion K2; fail). destruct cms as [|c cms]; [congruence|].
    inversion HP2; subst. inversion HC; subst. destruct (HP c) as [B _]; auto. apply B. unfold commentTok in *. replace (tTok c) with COMMENT by (symmetry; assumption). simpl. tauto.
  - subst. inversion K2.
  - destruct K2; inversion K; subst; try (match goal with H : Atom _ _ _ _ _ |- _ => inversion H; subst end);
      try (match goal with H : Infix _ _ _ _ _ _ |- _ => inversion H; subst end);
      repeat match goal with H : In ?t ts |- _ => apply HP in H; destruct H as [? ?] end;
      repeat match goal with H : _ \/ _ |- _ => destruct H end; subst; simpl in *; intuition congruence.
  - destruct K as [-> | ->]; inversion K2.
Qed.

(** A walk that counts the calls: twelve nodes. *)
Definition counting : visitor unit Z := fun _ _ n => Ok (n + 1, Some tt).
Example C34_ex : neverPrunes counting /\ neverFails counting /\
  exists rules p', parseSource X0 60 (str "a = {x: tstr, y: 1 / int}") [] = Ok ((Some (NCDDL zeroPos rules), None), p') /\
    walk counting tt (NCDDL zeroPos rules) 0 = Ok 24.
Proof.
  split; [intros v n s s' r _ E; inversion E; discriminate|]. split; [intros v n s; eexists; reflexivity|].
  vm_compute. do 2 eexists. split; reflexivity.
Qed.

(** [a = uint] cannot be walked. *)
Example C34_ex_uint : exists rules p', parseSource X0 20 (str "a = uint") [] = Ok ((Some (NCDDL zeroPos rules), None), p') /\
  walk counting tt (NCDDL zeroPos rules) 0 = Panic.
Proof. vm_compute. do 2 eexists. split; reflexivity. Qed.

(** A visitor that prunes entries and records what it sees. *)
Definition pruneEntries : visitor unit (list node) := fun _ n l => Ok (l ++ [n], match n with NEntry _ _ _ _ => None | _ => Some tt end).
Example C35_ex : forall p i v c j, walk pruneEntries tt (NGroup p [NEntry p i v c; NIdentifier j]) [] =
  Ok [NGroup p [NEntry p i v c; NIdentifier j]; NEntry p i v c; NIdentifier j; NNil; NNil].
Proof. reflexivity. Qed.
