(** Property C113: visitors that modify the tree while Walk walks it. *)
From Coq Require Import Cantor.
From Verif Require Import Base Token Ast Walk HeapWalk Props_Walk.

(** ** Specification *)

(** A tree of interface values; [None]: Walk does not know the node. *)
Inductive rtree : Type := RT (x : val) (kids : option (list rtree)).

(** [t] is what can be reached from [x], in memory [h], by the reads of Walk. Of these, no read
    of a place is in [W] and no read of a slice in [H]: that is what may be changed. *)
Section Trees.
Variables (W : place -> Prop) (H : nat -> Prop) (h : heap).

Definition headerOf (x : val) : option nat :=
  match x with VPtr k (Some a) => match shapeOf k with Elems => Some a | _ => None end | _ => None end.

Inductive TreeOf : val -> rtree -> Prop :=
| T_unknown : forall x, places h x = None -> TreeOf x (RT x None)
| T_known : forall x skip ps ts, places h x = Some (skip, ps) -> (forall a, headerOf x = Some a -> ~ H a) -> TreesOf skip ps ts -> TreeOf x (RT x (Some ts))
with TreesOf : bool -> list place -> list rtree -> Prop :=
| TS_nil : forall skip, TreesOf skip [] []
| TS_skip : forall p ps ts, ~ W p -> get h p = VNil -> TreesOf true ps ts -> TreesOf true (p :: ps) ts
| TS_cons : forall skip p ps t ts, ~ W p -> (skip = true -> get h p <> VNil) -> TreeOf (get h p) t -> TreesOf skip ps ts -> TreesOf skip (p :: ps) (t :: ts).
End Trees.

Scheme tree_min := Minimality for TreeOf Sort Prop with trees_min := Minimality for TreesOf Sort Prop.
Combined Scheme trees_ind from tree_min, trees_min.

(** Two memories with the same links but for these. *)
Definition sameLinks (W : place -> Prop) (H : nat -> Prop) (h h' : heap) : Prop :=
  (forall p, ~ W p -> get h' p = get h p) /\ (forall a, ~ H a -> hSlice h' a = hSlice h a).

(** A visitor that changes no other links. It may change everything else, such as names. *)
Definition spares {V S} (W : place -> Prop) (H : nat -> Prop) (visit : hvisitor V S) : Prop :=
  forall v x h s h' s' r, visit v x (h, s) = Ok ((h', s'), r) -> sameLinks W H h h'.

(** Walking a tree that stands still. *)
Section Still.
Context {V S : Type} (visit : hvisitor V S).

Fixpoint twalk (v : V) (t : rtree) (st : heap * S) : res (heap * S) :=
  match t with
  | RT x kids =>
    '(st, r) <- visit v x st;;
    match r with
    | None => Ok st
    | Some v' =>
      match kids with
      | None => Panic
      | Some ts =>
        st <- (fix all (l : list rtree) (st : heap * S) : res (heap * S) :=
          match l with [] => Ok st | t :: l => st <- twalk v' t st;; all l st end) ts st;;
        '(st, _) <- visit v' VNil st;; Ok st
      end
    end
  end.

Fixpoint twalks (v : V) (l : list rtree) (st : heap * S) : res (heap * S) :=
  match l with [] => Ok st | t :: l => st <- twalk v t st;; twalks v l st end.
End Still.

(** The calls of a visitor that never prunes: the node, its parts, and nil to close it. *)
Fixpoint calls (t : rtree) : list val := match t with RT x kids => x :: match kids with Some l => flat_map calls l | None => [] end ++ [VNil] end.

(** Walk knows all nodes. *)
Inductive Known : rtree -> Prop := Kn : forall x ts, x <> VNil -> Forall Known ts -> Known (RT x (Some ts)).

(** A visitor with a log of its calls. *)
Definition logged {V S} (visit : hvisitor V S) : hvisitor V (S * list val) :=
  fun v x st => '(st', r) <- visit v x (fst st, fst (snd st));; Ok ((fst st', (snd st', snd (snd st) ++ [x])), r).

(** ** Proofs *)

Lemma same_refl : forall W H h, sameLinks W H h h.
Proof. intros. split; auto. Qed.

Lemma same_trans : forall W H a b c, sameLinks W H a b -> sameLinks W H b c -> sameLinks W H a c.
Proof. intros W H a b c [A1 A2] [B1 B2]. split; intros x N; [rewrite B1, A1|rewrite B2, A2]; auto. Qed.

Lemma places_same : forall W H h h' x, sameLinks W H h h' -> (forall a, headerOf x = Some a -> ~ H a) -> places h' x = places h x.
Proof.
  intros W H h h' x [_ HS] N. destruct x as [|k [a|]]; cbn [places headerOf] in *; auto. destruct (shapeOf k); auto. now rewrite HS by (apply N; reflexivity).
Qed.

Lemma places_none : forall h h' x, places h x = None -> places h' x = None.
Proof.
  intros h h' x N. destruct x as [|k [a|]]; cbn [places] in *; auto. destruct (shapeOf k); auto. now destruct (hSlice h a) as [[b o] n].
Qed.

Lemma trees_same : forall W H h h', sameLinks W H h h' -> (forall x t, TreeOf W H h x t -> TreeOf W H h' x t) /\ (forall sk ps ts, TreesOf W H h sk ps ts -> TreesOf W H h' sk ps ts).
Proof.
  intros W H h h' HS. pose proof HS as [HG _]. apply trees_ind; intros.
  - constructor. eapply places_none; eauto.
  - econstructor; eauto. rewrite (places_same W H h h'); eauto.
  - constructor.
  - apply TS_skip; auto. now rewrite HG.
  - apply TS_cons; auto; rewrite HG; auto.
Qed.

Section Main.
Context {V S : Type} (W : place -> Prop) (H : nat -> Prop) (visit : hvisitor V S).
Hypothesis HV : spares W H visit.

Lemma twalk_eq : forall v x kids st, twalk visit v (RT x kids) st =
  ('(st, r) <- visit v x st;; match r with None => Ok st | Some v' => match kids with None => Panic | Some ts => st <- twalks visit v' ts st;; '(st, _) <- visit v' VNil st;; Ok st end end).
Proof.
  intros v x kids st. cbn [twalk]. destruct (visit v x st) as [[st1 [v'|]]| | |]; cbn [rbind]; auto. destruct kids as [ts|]; auto.
  match goal with |- rbind ?a _ = rbind ?b _ => assert (E : a = b); [|now rewrite E] end.
  generalize st1. induction ts as [|t ts IH]; intros s0; [reflexivity|]. cbn [twalks]. destruct (twalk visit v' t s0); cbn [rbind]; auto.
Qed.

Fixpoint depth (t : rtree) : nat := match t with RT _ kids => Datatypes.S (match kids with Some l => fold_right (fun t n => Nat.max (depth t) n) 0%nat l | None => 0%nat end) end.
Definition depths (l : list rtree) : nat := fold_right (fun t n => Nat.max (depth t) n) 0%nat l.

Lemma still : forall h0,
  (forall x t, TreeOf W H h0 x t -> forall f v h s, (depth t <= f)%nat -> sameLinks W H h0 h -> hwalk visit f v x (h, s) = twalk visit v t (h, s) /\
     forall h' s', twalk visit v t (h, s) = Ok (h', s') -> sameLinks W H h0 h') /\
  (forall sk ps ts, TreesOf W H h0 sk ps ts -> forall f v h s, (depths ts <= f)%nat -> sameLinks W H h0 h -> loop (hwalk visit f v) sk ps (h, s) = twalks visit v ts (h, s) /\
     forall h' s', twalks visit v ts (h, s) = Ok (h', s') -> sameLinks W H h0 h').
Proof.
  intros h0. apply trees_ind.
  - intros x N f v h s L HS. destruct f as [|f]; [cbn in L; lia|]. rewrite twalk_eq. cbn [hwalk].
    destruct (visit v x (h, s)) as [[[h1 s1] [v'|]]| | |] eqn:E; cbn [rbind fst]; try (split; [reflexivity|discriminate]).
    + rewrite (places_none h0 h1 x N). split; [reflexivity|discriminate].
    + split; auto. intros h' s' K. injection K as <- <-. eapply same_trans; eauto.
  - intros x sk ps ts EP NH HT IH f v h s L HS. destruct f as [|f]; [cbn in L; lia|]. rewrite twalk_eq. cbn [hwalk].
    destruct (visit v x (h, s)) as [[[h1 s1] [v'|]]| | |] eqn:E; cbn [rbind fst]; try (split; [reflexivity|discriminate]).
    + pose proof (same_trans _ _ _ _ _ HS (HV _ _ _ _ _ _ _ E)) as HS1. rewrite (places_same W H h0 h1 x HS1 NH), EP.
      cbn [depth] in L. fold (depths ts) in L. destruct (IH f v' h1 s1) as [A B]; auto; [lia|]. rewrite A.
      destruct (twalks visit v' ts (h1, s1)) as [[h2 s2]| | |]; cbn [rbind]; try (split; [reflexivity|discriminate]). specialize (B _ _ eq_refl).
      destruct (visit v' VNil (h2, s2)) as [[[h3 s3] r]| | |] eqn:E3; cbn [rbind]; try (split; [reflexivity|discriminate]).
      split; auto. intros h' s' K. injection K as <- <-. eapply same_trans; eauto.
    + split; auto. intros h' s' K. injection K as <- <-. eapply same_trans; eauto.
  - intros sk f v h s L HS. split; [reflexivity|]. intros h' s' K. injection K as <- <-. auto.
  - intros p ps ts NW G HT IH f v h s L HS. cbn [loop fst]. rewrite (proj1 HS p NW), G. now apply IH.
  - intros sk p ps t ts NW G HT IH HTS IHS f v h s L HS. cbn [loop fst twalks]. rewrite (proj1 HS p NW). cbn [depths fold_right] in L. fold (depths ts) in L.
    assert (EQ : match sk, get h0 p with true, VNil => loop (hwalk visit f v) sk ps (h, s) | _, x => st <- hwalk visit f v x (h, s);; loop (hwalk visit f v) sk ps st end =
      (st <- hwalk visit f v (get h0 p) (h, s);; loop (hwalk visit f v) sk ps st)).
    { destruct sk; [|reflexivity]. destruct (get h0 p); [exfalso; now apply G|reflexivity]. }
    rewrite EQ. destruct (IH f v h s) as [A B]; auto; [lia|]. rewrite A. destruct (twalk visit v t (h, s)) as [[h1 s1]| | |]; cbn [rbind]; try (split; [reflexivity|discriminate]).
    apply IHS; [lia|]. now apply (B h1 s1).
Qed.

(** C113. If the links that Walk reads stay as they are, so does the walk, whatever else the
    visitor changes: it is the walk of the tree as it was at the start. *)
Theorem C113_links : forall h s x t f v, TreeOf W H h x t -> (depth t <= f)%nat -> hwalk visit f v x (h, s) = twalk visit v t (h, s).
Proof. intros h s x t f v HT L. apply (proj1 (still h) x t HT f v h s L (same_refl _ _ _)). Qed.

(** The parts of a node are those it has when [Visit] has returned; for a list, what becomes of
    the slice itself during the walk of its elements does not matter ([x] may be in [H]). *)
Theorem C113_opened : forall h s x f v h1 s1 v' sk ps ts, visit v x (h, s) = Ok ((h1, s1), Some v') -> places h1 x = Some (sk, ps) -> TreesOf W H h1 sk ps ts -> (depths ts < f)%nat ->
  hwalk visit f v x (h, s) = (st <- twalks visit v' ts (h1, s1);; '(st, _) <- visit v' VNil st;; Ok st).
Proof.
  intros h s x f v h1 s1 v' sk ps ts E EP HT L. destruct f as [|f]; [lia|]. cbn [hwalk]. rewrite E. cbn [rbind fst]. rewrite EP.
  destruct (proj2 (still h1) sk ps ts HT f v' h1 s1) as [A _]; auto using same_refl; [lia|]. now rewrite A.
Qed.
End Main.

(** Each part is read when its turn comes: what is done to a later one in the meantime is seen. *)
Theorem C113_later : forall V S (visit : hvisitor V S) f v sk p ps h s h1 s1, (sk = true -> get h p <> VNil) -> hwalk visit f v (get h p) (h, s) = Ok (h1, s1) ->
  loop (hwalk visit f v) sk (p :: ps) (h, s) = loop (hwalk visit f v) sk ps (h1, s1).
Proof.
  intros V S visit f v sk p ps h s h1 s1 N E. cbn [loop fst]. destruct sk; [destruct (get h p) eqn:G; [exfalso; now apply N|]|]; rewrite E; reflexivity.
Qed.

(** ** The calls *)

Definition hneverPrunes {V S} (visit : hvisitor V S) : Prop := forall v x st st' r, x <> VNil -> visit v x st = Ok (st', r) -> r <> None.
Definition hneverFails {V S} (visit : hvisitor V S) : Prop := forall v x st, exists y, visit v x st = Ok y.

Lemma logged_spares : forall V S W H (visit : hvisitor V S), spares W H visit -> spares W H (logged visit).
Proof.
  intros V S W H visit HV v x h [s l] h' [s' l'] r E. unfold logged in E. cbn [fst snd] in E. destruct (visit v x (h, s)) as [[[h1 s1] r1]| | |] eqn:E1; cbn [rbind fst snd] in E; try discriminate.
  injection E as <- _ _ _. eapply HV; eauto.
Qed.

Section Logs.
Context {V S : Type} (visit : hvisitor V S).

Lemma rtree_all : forall (P : rtree -> Prop), (forall x, P (RT x None)) -> (forall x l, Forall P l -> P (RT x (Some l))) -> forall t, P t.
Proof.
  intros P H0 H1. fix IH 1. intros [x [l|]]; [|apply H0]. apply H1. induction l as [|t l IHl]; constructor; [apply IH|exact IHl].
Qed.

Lemma twalk_log : hneverPrunes visit -> hneverFails visit -> forall t, Known t -> forall v h s l, exists h' s', twalk (logged visit) v t (h, (s, l)) = Ok (h', (s', l ++ calls t)).
Proof.
  intros NP NF. refine (rtree_all _ _ _); [intros x K; inversion K|]. intros x ts IH K v h s l. inversion K as [? ? NX KS]; subst. rewrite twalk_eq. unfold logged at 1. cbn [fst snd].
  destruct (NF v x (h, s)) as ([[h1 s1] r] & E). rewrite E. cbn [rbind fst snd]. destruct r as [v'|]; [|exfalso; exact (NP _ _ _ _ _ NX E eq_refl)].
  assert (A : forall h s l, exists h' s', twalks (logged visit) v' ts (h, (s, l)) = Ok (h', (s', l ++ flat_map calls ts))).
  { clear - IH KS. induction IH as [|t ts IHt _ IHts]; intros h s l; [exists h, s; cbn [flat_map]; now rewrite app_nil_r|]. inversion KS as [|? ? K1 K2]; subst.
    destruct (IHt K1 v' h s l) as (h1 & s1 & E1). destruct (IHts K2 h1 s1 (l ++ calls t)) as (h2 & s2 & E2). exists h2, s2. cbn [twalks flat_map]. rewrite E1. cbn [rbind]. rewrite E2. now rewrite app_assoc. }
  destruct (A h1 s1 (l ++ [x])) as (h2 & s2 & E2). rewrite E2. cbn [rbind]. unfold logged. cbn [fst snd]. destruct (NF v' VNil (h2, s2)) as ([[h3 s3] r3] & E3). rewrite E3. cbn [rbind fst snd].
  exists h3, s3. cbn [calls]. now rewrite <- !app_assoc.
Qed.
End Logs.

(** A visitor that never prunes, never fails and leaves the links alone is called for exactly
    the nodes that were there at the start, in pre-order, whatever else it changes. *)
Theorem C113_calls : forall V S W H (visit : hvisitor V S) h s x t v f, spares W H visit -> hneverPrunes visit -> hneverFails visit -> TreeOf W H h x t -> Known t -> (depth t <= f)%nat ->
  exists h' s', hwalk (logged visit) f v x (h, (s, [])) = Ok (h', (s', calls t)).
Proof.
  intros V S W H visit h s x t v f HV NP NF HT K L. rewrite (C113_links W H (logged visit) (logged_spares _ _ _ _ _ HV) h (s, []) x t f v HT L). apply (twalk_log visit NP NF t K v h s []).
Qed.

(** ** The walk of Walk.v *)

(** A node without its parts. *)
Definition own (n : node) : node :=
  match n with
  | NEntry p i v c => NEntry p (mkIdent zeroPos []) NNil None
  | NRule p i v c => NRule p (mkIdent zeroPos []) NNil None
  | NTypeChoice p t a b => NTypeChoice p t NNil NNil
  | NGroupChoice p t a b => NGroupChoice p t NNil NNil
  | NRange p t a b => NRange p t NNil NNil
  | NComparator p t o a b => NComparator p t o NNil NNil
  | NSizeOp p t a b => NSizeOp p t NNil NNil
  | NRegexp p t b r => NRegexp p t None NNil
  | NOptional p t i => NOptional p t NNil
  | NUnwrap p t i => NUnwrap p t NNil
  | NNMOccurrence p t a b i => NNMOccurrence p t None None NNil
  | NTag p t a b i => NTag p t None None NNil
  | NGroup p l => NGroup p []
  | NMap p t l => NMap p t []
  | NArray p l => NArray p []
  | NCDDL p l => NCDDL p []
  | n => n
  end.

Definition orNil {A} (f : A -> node) (o : option A) : node := match o with None => NNil | Some x => f x end.

(** The fields with parts, in the order of Walk; nil is [NNil]. *)
Definition fieldsOf (n : node) : list node :=
  match n with
  | NRule _ i v c | NEntry _ i v c => [NIdentifier i; v; orNil NComment c]
  | NTypeChoice _ _ a b | NGroupChoice _ _ a b | NRange _ _ a b | NComparator _ _ _ a b => [a; b]
  | NSizeOp _ _ size ty => [ty; size]
  | NRegexp _ _ b r => [orNil (fun b => NTstrType (fst b) (snd b)) b; r]
  | NOptional _ _ i | NUnwrap _ _ i => [i]
  | NNMOccurrence _ _ a b i | NTag _ _ a b i => [orNil NUintLiteral a; orNil NUintLiteral b; i]
  | _ => []
  end.
Definition elemsOf (n : node) : list node := match n with NCDDL _ l | NGroup _ l | NMap _ _ l | NArray _ l => l | _ => [] end.

Definition isPtr (n : node) : Prop := n <> NNil /\ forall k, n <> NTypedNil k.

(** [Rep h n x]: the value [x] is the tree [n] in memory [h]. *)
Definition isList (n : node) : Prop := match n with NCDDL _ _ | NGroup _ _ | NMap _ _ _ | NArray _ _ => True | _ => False end.
Inductive Rep (h : heap) : node -> val -> Prop :=
| Rep_nil : Rep h NNil VNil
| Rep_typed : forall k, Rep h (NTypedNil k) (VPtr k None)
| Rep_fields : forall n k a, isPtr n -> ~ isList n -> typeOf n = Some k -> hData h a = own n ->
    Forall2 (Rep h) (fieldsOf n) (map (hField h a) (seq 0 (length (fieldsOf n)))) -> Rep h n (VPtr k (Some a))
| Rep_elems : forall n k a b o, isList n -> typeOf n = Some k -> hData h a = own n -> hSlice h a = (b, o, length (elemsOf n)) ->
    Forall2 (Rep h) (elemsOf n) (map (fun i => hElem h b (o + i)) (seq 0 (length (elemsOf n)))) -> Rep h n (VPtr k (Some a)).

Definition lift {S V} (h : heap) (r : res (S * option V)) : res (heap * S * option V) := ('(s, v) <- r;; Ok ((h, s), v)).

(** A visitor that modifies nothing, and what it does for trees. *)
Definition reads {V S} (h : heap) (visit : hvisitor V S) (pure : visitor V S) : Prop :=
  forall v n x s, Rep h n x -> visit v x (h, s) = lift h (pure v n s).

Lemma parts_fields : forall n k, isPtr n -> ~ isList n -> typeOf n = Some k ->
  (shapeOf k = HeapWalk.Unknown /\ parts n = None) \/
  (parts n = Some (flat_map notNil (fieldsOf n)) /\ (shapeOf k = Leaf /\ fieldsOf n = [] \/ shapeOf k = Fields (length (fieldsOf n)))).
Proof.
  intros n k [N1 N2] NL E. destruct n; cbn [typeOf] in E; try (exfalso; eapply N2; reflexivity); try (exfalso; apply NL; exact I); try congruence; injection E as <-; cbn [shapeOf].
  all: try (left; split; reflexivity).
  all: right; split; [|try (right; reflexivity); left; split; reflexivity].
  all: cbn [parts fieldsOf flat_map]; rewrite ?app_nil_r; try reflexivity.
  all: repeat match goal with o : option _ |- _ => destruct o end; cbn [orNil notNil lit remark app]; rewrite ?app_nil_r; try reflexivity.
  all: try (match goal with p : position * token |- _ => destruct p end; reflexivity).
Qed.

Lemma parts_elems : forall n k, isList n -> typeOf n = Some k -> shapeOf k = Elems /\ parts n = Some (elemsOf n).
Proof. intros n k L E. destruct n; try destruct L; injection E as <-; split; reflexivity. Qed.

Section Pure.
Context {V S : Type} (h : heap) (visit : hvisitor V S) (pure : visitor V S).
Hypothesis HV : reads h visit pure.

Definition keepH (r : res S) : res (heap * S) := (s <- r;; Ok (h, s)).

(** With fuel from [F] on, walking [x] in memory is walking the tree [n]. *)
Definition agree (n : node) (F : nat) : Prop := forall f x v s, (F <= f)%nat -> Rep h n x -> hwalk visit f v x (h, s) = keepH (walk pure v n s).

Lemma loop_agree : forall F f v ps ns s, (F <= f)%nat -> Forall (fun n => agree n F) ns -> Forall2 (Rep h) ns (map (get h) ps) ->
  loop (hwalk visit f v) false ps (h, s) = keepH (walkAll pure v ns s).
Proof.
  intros F f v ps ns s L HA HR. revert s. remember (map (get h) ps) as xs eqn:EX. revert ps EX. induction HR as [|n x ns xs HRX HR IH]; intros ps EX s; destruct ps as [|p ps]; try discriminate EX; [reflexivity|].
  injection EX as EX1 EX2. inversion HA as [|? ? A1 A2]; subst. cbn [loop fst walkAll]. rewrite (A1 f (get h p) v s L HRX). destruct (walk pure v n s) as [s1| | |]; cbn [keepH rbind]; auto.
Qed.

Lemma loop_fields : forall F f v ps ns s, (F <= f)%nat -> Forall (fun n => n = NNil \/ agree n F) ns -> Forall2 (Rep h) ns (map (get h) ps) ->
  loop (hwalk visit f v) true ps (h, s) = keepH (walkAll pure v (flat_map notNil ns) s).
Proof.
  intros F f v ps ns s L HA HR. revert s. remember (map (get h) ps) as xs eqn:EX. revert ps EX. induction HR as [|n x ns xs HRX HR IH]; intros ps EX s; destruct ps as [|p ps]; try discriminate EX; [reflexivity|].
  injection EX as EX1 EX2. inversion HA as [|? ? A1 A2]; subst. specialize (IH A2 ps eq_refl). cbn [loop fst flat_map].
  destruct (get h p) as [|k a] eqn:G.
  - assert (n = NNil) as -> by (inversion HRX; auto). cbn [notNil app]. apply IH.
  - assert (NN : notNil n = [n]) by (destruct n; try reflexivity; inversion HRX; subst; match goal with K : isPtr NNil |- _ => destruct K as [K _]; congruence | K : isList NNil |- _ => destruct K end).
    destruct A1 as [->|A1]; [discriminate NN|]. rewrite NN. cbn [app walkAll]. rewrite (A1 f _ v s L HRX). destruct (walk pure v n s) as [s1| | |]; cbn [keepH rbind]; auto.
Qed.

Lemma agree_more : forall n F G, (F <= G)%nat -> agree n F -> agree n G.
Proof. intros n F G L A f x v s LF HR. apply A; auto. lia. Qed.

Lemma all_agree : forall ns, Forall (fun n => exists F, agree n F) ns -> exists F, Forall (fun n => agree n F) ns.
Proof.
  intros ns HA. induction HA as [|n ns (F & A) _ (G & B)]; [exists 0%nat; constructor|]. exists (Nat.max F G). constructor; [apply (agree_more n F); auto; lia|].
  eapply Forall_impl; [|exact B]. intros m A'. apply (agree_more m G); auto. lia.
Qed.

(** With a visitor that modifies nothing Walk does in memory what it does in Walk.v, and so
    everything proved there holds of it. *)
Theorem C113_unmodified : forall n, exists F, forall f x v s, (F <= f)%nat -> Rep h n x -> hwalk visit f v x (h, s) = (s' <- walk pure v n s;; Ok (h, s')).
Proof.
  refine (parts_ind _ _). intros n IH.
  assert (ALL : exists F, forall ps, parts n = Some ps -> Forall (fun m => agree m F) ps).
  { destruct (parts n) as [ps|]; [|exists 0%nat; discriminate]. destruct (all_agree ps (IH ps eq_refl)) as (F & A). exists F. intros qs E. injection E as <-. exact A. }
  destruct ALL as (F & A). exists (Datatypes.S F). intros f x v s L HR. destruct f as [|f]; [lia|]. apply le_S_n in L. cbn [hwalk]. rewrite walk_eq, (HV v n x s HR). unfold lift.
  destruct (pure v n s) as [[s1 [v'|]]| | |]; cbn [rbind fst]; auto.
  assert (END : forall s2, ('(st, _) <- visit v' VNil (h, s2);; Ok st) = keepH ('(s3, _) <- pure v' NNil s2;; Ok s3)).
  { intros s2. rewrite (HV v' NNil VNil s2 (Rep_nil h)). unfold lift. destruct (pure v' NNil s2) as [[s3 r]| | |]; reflexivity. }
  assert (STEP : forall sk ps qs, parts n = Some qs -> loop (hwalk visit f v') sk ps (h, s1) = keepH (walkAll pure v' qs s1) ->
    (st <- loop (hwalk visit f v') sk ps (h, s1);; '(st, _) <- visit v' VNil st;; Ok st) =
    (s' <- match parts n with None => Panic | Some ps => s <- walkAll pure v' ps s1;; '(s, _) <- pure v' NNil s;; Ok s end;; Ok (h, s'))).
  { intros sk ps qs EP EL. rewrite EL, EP. destruct (walkAll pure v' qs s1) as [s2| | |]; cbn [keepH rbind]; auto. rewrite END. reflexivity. }
  destruct HR as [|k|n k a I NL T D HF|n k a b o I T D HSL HE].
  - reflexivity.
  - cbn [places]. destruct (shapeOf k) eqn:SH; try (cbn [parts]; destruct k; try discriminate SH; reflexivity). apply (STEP _ _ []); [|reflexivity]. destruct k; try discriminate SH; reflexivity.
  - cbn [places]. destruct (parts_fields n k I NL T) as [[SH EP]|[EP SH]]; [rewrite SH, EP; reflexivity|].
    destruct SH as [[SH E0]|SH]; rewrite SH; apply (STEP _ _ _ EP); [rewrite E0; reflexivity|]. apply (loop_fields F); auto.
    + specialize (A _ EP). clear - A. induction (fieldsOf n) as [|y l IHl]; constructor.
      * cbn [flat_map] in A. destruct y; auto; right; inversion A; auto.
      * apply IHl. cbn [flat_map] in A. apply Forall_app in A. apply A.
    + rewrite map_map. exact HF.
  - cbn [places]. destruct (parts_elems n k I T) as [SH EP]. rewrite SH, HSL. apply (STEP _ _ _ EP). apply (loop_agree F); auto. rewrite map_map. exact HE.
Qed.
End Pure.

(** ** Every tree is in some memory *)

Definition noMemory : heap := mkHeap (fun _ _ => VNil) (fun _ => (0, 0, 0)%nat) (fun _ _ => VNil) (fun _ => NNil).
Definition ren (i : nat) (x : val) : val := match x with VPtr k (Some a) => VPtr k (Some (Datatypes.S (Cantor.to_nat (i, a)))) | x => x end.

(** The memories [hs i] side by side, and at address 0 a node with parts [xs]. *)
Definition join (hs : nat -> heap) (xs : nat -> val) (sl : nat) (d : node) : heap :=
  let on {A} (z : A) (f : nat -> nat -> A) a := match a with O => z | Datatypes.S a => let (i, b) := Cantor.of_nat a in f i b end in
  mkHeap (fun a j => on (xs j) (fun i b => ren i (hField (hs i) b j)) a)
    (fun a => on (0, 0, sl)%nat (fun i b => let '(c, o, n) := hSlice (hs i) b in (Datatypes.S (Cantor.to_nat (i, c)), o, n)) a)
    (fun a j => on (xs j) (fun i b => ren i (hElem (hs i) b j)) a)
    (fun a => on d (fun i b => hData (hs i) b) a).

Lemma Forall2_on : forall A B C (R : A -> B -> Prop) (Q : A -> C -> Prop) (g : B -> C) l l', Forall (fun a => forall b, R a b -> Q a (g b)) l -> Forall2 R l l' -> Forall2 Q l (map g l').
Proof. intros A B C R Q g l l' HA HR. induction HR; cbn [map]; constructor; inversion HA; auto. Qed.

Lemma fields_ind : forall (P : node -> Prop), P NNil -> (forall n, Forall P (fieldsOf n) -> Forall P (elemsOf n) -> P n) -> forall n, P n.
Proof.
  intros P P0 HP. apply parts_ind. intros n IH. apply HP.
  - destruct n; cbn [fieldsOf]; try constructor; specialize (IH _ eq_refl); cbn [parts] in IH.
    all: repeat match goal with o : option _ |- _ => destruct o end; cbn [orNil lit remark notNil app] in *.
    all: repeat match goal with p : position * token |- _ => destruct p end; cbn [fst snd] in *.
    all: repeat match goal with H : Forall _ (_ ++ _) |- _ => apply Forall_app in H as [? ?] | H : Forall _ (_ :: _) |- _ => inversion H; subst; clear H end.
    all: repeat constructor; auto; try (apply HP; constructor).
    all: match goal with |- ?Q ?m => destruct m; auto; cbn [notNil app] in *; match goal with H : Forall _ [_] |- _ => now inversion H end end.
  - destruct n; cbn [elemsOf]; try constructor; exact (IH _ eq_refl).
Qed.

Lemma join_at : forall hs xs sl d i a, let H := join hs xs sl d in let b := Datatypes.S (Cantor.to_nat (i, a)) in
  hData H b = hData (hs i) a /\ hSlice H b = (let '(c, o, n) := hSlice (hs i) a in (Datatypes.S (Cantor.to_nat (i, c)), o, n)) /\
  forall j, hField H b j = ren i (hField (hs i) a j) /\ hElem H b j = ren i (hElem (hs i) a j).
Proof. intros hs xs sl d i a H b. unfold H, b, join. cbn [hData hSlice hField hElem]. rewrite Cantor.cancel_of_to. auto. Qed.

Lemma rep_join : forall hs xs sl d i n x, Rep (hs i) n x -> Rep (join hs xs sl d) n (ren i x).
Proof.
  intros hs xs sl d i n. revert n. refine (fields_ind _ _ _).
  - intros x R. inversion R; subst; try (match goal with K : isPtr NNil |- _ => destruct K as [K _]; congruence | K : isList NNil |- _ => destruct K end). constructor.
  - intros n IF IE x R. destruct R as [|k|n k a I NL T D HF|n k a b o I T D HSL HE]; cbn [ren]; [constructor|constructor|apply Rep_fields; auto|].
    + rewrite (proj1 (join_at hs xs sl d i a)). exact D.
    + match goal with |- Forall2 _ _ ?l => replace l with (map (ren i) (map (hField (hs i) a) (seq 0 (length (fieldsOf n))))) end; [eapply Forall2_on; eauto|].
      rewrite map_map. apply map_ext. intros j. symmetry. apply (proj2 (proj2 (join_at hs xs sl d i a))).
    + apply (Rep_elems _ _ _ _ (Datatypes.S (Cantor.to_nat (i, b))) o); auto; [rewrite (proj1 (join_at hs xs sl d i a)); exact D|rewrite (proj1 (proj2 (join_at hs xs sl d i a))), HSL; reflexivity|].
      match goal with |- Forall2 _ _ ?l => replace l with (map (ren i) (map (fun j => hElem (hs i) b (o + j)) (seq 0 (length (elemsOf n))))) end; [eapply Forall2_on; eauto|].
      rewrite map_map. apply map_ext. intros j. symmetry. apply (proj2 (proj2 (join_at hs xs sl d i b))).
Qed.

Lemma gather : forall ns, Forall (fun n => exists h x, Rep h n x) ns -> exists hs xs, forall sl d, Forall2 (Rep (join hs xs sl d)) ns (map xs (seq 0 (length ns))).
Proof.
  intros ns HA. assert (G : exists hs ys, Forall2 (fun n i => Rep (hs i) n (ys i)) ns (seq 0 (length ns))).
  { generalize 0%nat. induction HA as [|n ns (h & x & R) _ IH]; intros b; [exists (fun _ => noMemory), (fun _ => VNil); constructor|].
    destruct (IH (Datatypes.S b)) as (hs & ys & A). exists (fun i => if Nat.eqb i b then h else hs i), (fun i => if Nat.eqb i b then x else ys i). cbn [length seq]. constructor; [now rewrite Nat.eqb_refl|].
    clear - A. assert (L : forall i, In i (seq (Datatypes.S b) (length ns)) -> Nat.eqb i b = false) by (intros i K; apply in_seq in K; apply Nat.eqb_neq; lia).
    revert L. induction A; intros L; constructor; [rewrite (L y (or_introl eq_refl)); exact H|]. apply IHA. intros i K. apply L. now right. }
  destruct G as (hs & ys & A). exists hs, (fun i => ren i (ys i)). intros sl d. set (m := join hs (fun i => ren i (ys i)) sl d).
  assert (E : forall i n, Rep (hs i) n (ys i) -> Rep m n (ren i (ys i))) by (intros i n R; apply rep_join; exact R).
  clearbody m. revert A. generalize (seq 0 (length ns)). intros l A. clear HA. induction A as [|n i ns l R A IH]; cbn [map]; [constructor|]. constructor; [now apply E|exact IH].
Qed.

Theorem C113_every : forall n, exists h x, Rep h n x.
Proof.
  refine (fields_ind _ _ _); [exists noMemory, VNil; constructor|]. intros n IF IE.
  assert (D : n = NNil \/ (exists k, n = NTypedNil k) \/ isList n \/ isPtr n /\ ~ isList n) by (destruct n; auto; [right; left; eauto|..]; right; right; try (left; exact I); right; split; try (intros []); split; intros; discriminate).
  destruct D as [->|[(k & ->)|[L|[I NL]]]]; [exists noMemory, VNil; constructor|exists noMemory, (VPtr k None); constructor| |].
  - destruct (gather _ IE) as (hs & xs & A). destruct (typeOf n) as [k|] eqn:T; [|destruct n; try destruct L; discriminate T].
    exists (join hs xs (length (elemsOf n)) (own n)), (VPtr k (Some 0%nat)). apply (Rep_elems _ _ _ _ 0%nat 0%nat); auto.
  - destruct (gather _ IF) as (hs & xs & A). destruct (typeOf n) as [k|] eqn:T; [|destruct I; destruct n; discriminate T || congruence].
    exists (join hs xs 0 (own n)), (VPtr k (Some 0%nat)). apply Rep_fields; auto.
Qed.

(** ** Trees in memory and the reads of Walk *)

Section Reads.
Variable h : heap.
Notation nowhere := (fun _ : place => False).
Notation never := (fun _ : nat => False).

Definition readAs (n : node) : Prop := forall x, Rep h n x -> exists t l, TreeOf nowhere never h x t /\ Known t /\ Preorder n l /\ Forall2 (Rep h) l (calls t).

Lemma rep_nil : forall n x, Rep h n x -> (n = NNil <-> x = VNil).
Proof.
  intros n x R. destruct R as [|k|n k a I NL T D HF|n k a b o I T D HSL HE]; split; intros K; auto; try discriminate K.
  - destruct I as [I _]. congruence.
  - subst n. destruct I.
Qed.

Lemma read_fields : forall ns ps, Forall (fun n => n = NNil \/ readAs n) ns -> Forall2 (Rep h) ns (map (get h) ps) ->
  exists ts ls, TreesOf nowhere never h true ps ts /\ Forall Known ts /\ Forall2 Preorder (flat_map notNil ns) ls /\ Forall2 (Rep h) (concat ls) (flat_map calls ts).
Proof.
  intros ns ps HA HR. remember (map (get h) ps) as xs eqn:EX. revert ps EX. induction HR as [|n x ns xs HRX HR IH]; intros ps EX; destruct ps as [|p ps]; try discriminate EX; [exists [], []; repeat split; constructor|].
  injection EX as EX1 EX2. inversion HA as [|? ? A1 A2]; subst. destruct (IH A2 ps eq_refl) as (ts & ls & T1 & T2 & T3 & T4). pose proof (rep_nil _ _ HRX) as RN.
  destruct (get h p) as [|k a] eqn:G.
  - assert (n = NNil) as -> by now apply RN. exists ts, ls. split; [apply TS_skip; auto|]. auto.
  - assert (NN : n <> NNil) by (intros E; apply RN in E; discriminate). destruct A1 as [A1|A1]; [contradiction|]. destruct (A1 _ HRX) as (t & l & B1 & B2 & B3 & B4).
    exists (t :: ts), (l :: ls). split; [apply TS_cons; auto; rewrite G; [discriminate|exact B1]|]. split; [constructor; auto|]. cbn [flat_map concat]. replace (notNil n) with [n] by (destruct n; congruence || reflexivity).
    split; [constructor; auto|]. apply Forall2_app; auto.
Qed.

Lemma read_elems : forall ns ps, Forall readAs ns -> Forall2 (Rep h) ns (map (get h) ps) ->
  exists ts ls, TreesOf nowhere never h false ps ts /\ Forall Known ts /\ Forall2 Preorder ns ls /\ Forall2 (Rep h) (concat ls) (flat_map calls ts).
Proof.
  intros ns ps HA HR. remember (map (get h) ps) as xs eqn:EX. revert ps EX. induction HR as [|n x ns xs HRX HR IH]; intros ps EX; destruct ps as [|p ps]; try discriminate EX; [exists [], []; repeat split; constructor|].
  injection EX as EX1 EX2. inversion HA as [|? ? A1 A2]; subst. destruct (IH A2 ps eq_refl) as (ts & ls & T1 & T2 & T3 & T4). destruct (A1 _ HRX) as (t & l & B1 & B2 & B3 & B4).
  exists (t :: ts), (l :: ls). split; [apply TS_cons; auto; discriminate|]. split; [constructor; auto|]. split; [constructor; auto|]. cbn [flat_map concat]. apply Forall2_app; auto.
Qed.

Lemma read_tree : forall n, (forall m, Reach n m -> m <> NNil /\ parts m <> None) -> readAs n.
Proof.
  refine (parts_ind _ _). intros n IH HR x R. pose proof (HR n (R_here n)) as [NN NP].
  assert (ALL : forall ps, parts n = Some ps -> Forall readAs ps).
  { intros ps E. apply Forall_forall. intros m M. pose proof (IH ps E) as K. rewrite Forall_forall in K. apply (K m M). intros q Q. apply HR. eapply R_part; eauto. }
  assert (XN : x <> VNil) by (intros E; apply NN; now apply (rep_nil n x R)).
  assert (STEP : forall sk ps qs ts ls, places h x = Some (sk, ps) -> parts n = Some qs -> TreesOf nowhere never h sk ps ts -> Forall Known ts -> Forall2 Preorder qs ls -> Forall2 (Rep h) (concat ls) (flat_map calls ts) ->
    exists t l, TreeOf nowhere never h x t /\ Known t /\ Preorder n l /\ Forall2 (Rep h) l (calls t)).
  { intros sk ps qs ts ls E1 E2 T1 T2 T3 T4. exists (RT x (Some ts)), (n :: concat ls ++ [NNil]). split; [econstructor; eauto; intros a _ []|]. split; [constructor; auto|]. split; [econstructor; eauto|].
    cbn [calls]. constructor; auto. apply Forall2_app; auto. constructor; [constructor|constructor]. }
  assert (LEAF : places h x = Some (true, []) -> parts n = Some [] -> exists t l, TreeOf nowhere never h x t /\ Known t /\ Preorder n l /\ Forall2 (Rep h) l (calls t)).
  { intros E1 E2. apply (STEP true [] [] [] []); auto; constructor. }
  destruct R as [|k|n k a I NL T D HF|n k a b o I T D HSL HE]; [congruence| | |].
  - destruct (shapeOf k) eqn:SH; try (exfalso; apply NP; destruct k; try discriminate SH; reflexivity). apply LEAF; [cbn [places]; now rewrite SH|destruct k; try discriminate SH; reflexivity].
  - destruct (parts_fields n k I NL T) as [[SH EP]|[EP SH]]; [congruence|].
    destruct SH as [[SH E0]|SH]; [apply LEAF; [cbn [places]; now rewrite SH|rewrite EP, E0; reflexivity]|].
    destruct (read_fields (fieldsOf n) (map (PField a) (seq 0 (length (fieldsOf n))))) as (ts & ls & T1 & T2 & T3 & T4).
    + specialize (ALL _ EP). clear - ALL. induction (fieldsOf n) as [|y l IHl]; constructor.
      * cbn [flat_map] in ALL. destruct y; auto; right; inversion ALL; auto.
      * apply IHl. cbn [flat_map] in ALL. apply Forall_app in ALL. apply ALL.
    + rewrite map_map. exact HF.
    + eapply STEP; eauto. cbn [places]. now rewrite SH.
  - destruct (parts_elems n k I T) as [SH EP]. destruct (read_elems (elemsOf n) (map (fun i => PElem b (o + i)) (seq 0 (length (elemsOf n))))) as (ts & ls & T1 & T2 & T3 & T4); [now apply ALL|rewrite map_map; exact HE|].
    eapply STEP; eauto. cbn [places]. now rewrite SH, HSL.
Qed.
End Reads.

(** A tree in memory whose nodes Walk knows, and a visitor that never prunes, never fails and
    may change everything but links: it is called for exactly the nodes of the tree, in
    pre-order, as they were in memory at the start. *)
Theorem C113_preorder : forall V S (visit : hvisitor V S) h n x v s, Rep h n x -> (forall m, Reach n m -> m <> NNil /\ parts m <> None) ->
  spares (fun _ => False) (fun _ => False) visit -> hneverPrunes visit -> hneverFails visit ->
  exists F l called, Preorder n l /\ Forall2 (Rep h) l called /\ forall f, (F <= f)%nat -> exists h' s', hwalk (logged visit) f v x (h, (s, [])) = Ok (h', (s', called)).
Proof.
  intros V S visit h n x v s R HR HV NP NF. destruct (read_tree h n HR x R) as (t & l & T1 & T2 & T3 & T4). exists (depth t), l, (calls t). split; auto. split; auto.
  intros f L. eapply C113_calls; eauto.
Qed.

(** ** Examples *)

Definition setField (h : heap) (a i : nat) (x : val) : heap :=
  mkHeap (fun b j => if Nat.eqb b a && Nat.eqb j i then x else hField h b j) (hSlice h) (hElem h) (hData h).
Definition setSlice (h : heap) (a : nat) (sl : nat * nat * nat) : heap :=
  mkHeap (hField h) (fun b => if Nat.eqb b a then sl else hSlice h b) (hElem h) (hData h).
Definition setElem (h : heap) (a i : nat) (x : val) : heap :=
  mkHeap (hField h) (hSlice h) (fun b j => if Nat.eqb b a && Nat.eqb j i then x else hElem h b j) (hData h).
Definition setData (h : heap) (a : nat) (n : node) : heap :=
  mkHeap (hField h) (hSlice h) (hElem h) (fun b => if Nat.eqb b a then n else hData h b).

(** [? [int, bool]]: an Optional at 0, an Array at 1 with its elements in array 7. *)
Definition anOptional : val := VPtr KOptional (Some 0%nat).
Definition anArray : val := VPtr KArray (Some 1%nat).
Definition anInt : val := VPtr KIntegerType (Some 2%nat).
Definition aBool : val := VPtr KBooleanType (Some 3%nat).
Definition aText : val := VPtr KTstrType (Some 4%nat).
Definition exTree : node := NOptional zeroPos ILLEGAL (NArray zeroPos [NIntegerType zeroPos ILLEGAL; NBooleanType zeroPos ILLEGAL]).
Definition exMemory : heap :=
  setData (setData (setData (setData (setElem (setElem (setSlice (setField noMemory 0 0 anArray) 1 (7, 0, 2)%nat) 7 0 anInt) 7 1 aBool)
    0 (own exTree)) 1 (NArray zeroPos [])) 2 (NIntegerType zeroPos ILLEGAL)) 3 (NBooleanType zeroPos ILLEGAL).
Definition exReads : rtree := RT anOptional (Some [RT anArray (Some [RT anInt (Some []); RT aBool (Some [])])]).

(** Without hypotheses on the visitor Walk need not end: this one makes each node its own part. *)
Definition toItself : hvisitor unit unit :=
  fun _ x st => match x with VPtr _ (Some a) => Ok ((setField (fst st) a 0 x, snd st), Some tt) | _ => Ok (st, Some tt) end.

Theorem C113_endless_refuted : exists V S (visit : hvisitor V S) v h s x t, TreeOf (fun _ => False) (fun _ => False) h x t /\ Known t /\ hneverFails visit /\
  forall f, hwalk visit f v x (h, s) = NoFuel.
Proof.
  exists unit, unit, toItself, tt, exMemory, tt, anOptional, exReads. split; [|split; [|split]].
  - unfold exReads. econstructor; [reflexivity|intros a K [] |]. apply TS_cons; [intros []|intros _; discriminate| |constructor].
    econstructor; [reflexivity|intros a K [] |]. apply TS_cons; [intros []|discriminate| |]; [econstructor; [reflexivity|intros a K []|constructor]|].
    apply TS_cons; [intros []|discriminate| |constructor]. econstructor; [reflexivity|intros a K []|constructor].
  - repeat (constructor; try discriminate).
  - intros v [|k [a|]] st; eexists; reflexivity.
  - intros f. generalize exMemory. induction f as [|f IH]; intros h; [reflexivity|]. cbn. fold anOptional. rewrite IH. reflexivity.
Qed.

(** At the integer this visitor puts another element in the place of the next one, writes a third
    one behind the slice, lengthens the slice and takes the array out of the Optional. *)
Definition meddles : hvisitor unit unit :=
  fun _ x st => match x with
  | VPtr KIntegerType _ => Ok ((setField (setSlice (setElem (setElem (fst st) 7 1 aText) 7 2 aBool) 1 (7, 0, 3)%nat) 0 0 aText, snd st), Some tt)
  | _ => Ok (st, Some tt)
  end.

Example C113_ex :
  match hwalk (logged meddles) 9 tt anOptional (exMemory, (tt, [])) with
  | Ok (h, (_, l)) => l = [anOptional; anArray; anInt; VNil; aText; VNil; VNil; VNil] /\ hSlice h 1 = (7, 0, 3)%nat /\ hField h 0 0 = aText
  | _ => False
  end.
Proof. vm_compute. repeat split. Qed.

(** The slice of the array above and what lies behind its end may change, its two elements may not. *)
Example C113_opened_ex : exists ts, TreesOf (fun p => p = PElem 7 2 \/ p = PField 0 0) (fun a => a = 1%nat) exMemory false [PElem 7 0; PElem 7 1] ts /\ flat_map calls ts = [anInt; VNil; aBool; VNil].
Proof.
  eexists. split; [apply TS_cons; [intros [K|K]; discriminate K|discriminate| |apply TS_cons; [intros [K|K]; discriminate K|discriminate| |apply TS_nil]]|].
  - econstructor; [reflexivity|discriminate|constructor].
  - econstructor; [reflexivity|discriminate|constructor].
  - reflexivity.
Qed.

(** The same tree, not modified: the hypotheses of [C113_unmodified] hold. *)
Example C113_unmodified_ex : Rep exMemory exTree anOptional.
Proof.
  assert (L : forall n k a, isPtr n -> ~ isList n -> typeOf n = Some k -> hData exMemory a = own n -> fieldsOf n = [] -> Rep exMemory n (VPtr k (Some a))) by (intros n k a I NL T D F; apply Rep_fields; auto; rewrite F; constructor).
  apply Rep_fields; try reflexivity; [split; intros; discriminate|intros []|]. constructor; [|constructor].
  apply (Rep_elems _ _ _ _ 7%nat 0%nat); try reflexivity. constructor; [|constructor; [|constructor]].
  - apply L; try reflexivity; [split; intros; discriminate|intros []].
  - apply L; try reflexivity; [split; intros; discriminate|intros []].
Qed.

(** A visitor that changes names and nothing else leaves all links alone. *)
Definition renames : hvisitor unit unit :=
  fun _ x st => match x with VPtr KIdentifier (Some a) => Ok ((setData (fst st) a (NIdentifier (mkIdent zeroPos [120])), snd st), Some tt) | _ => Ok (st, Some tt) end.

Example C113_links_ex : spares (fun _ => False) (fun _ => False) renames /\ hneverPrunes renames /\ hneverFails renames.
Proof.
  split; [|split].
  - intros v x h s h' s' r E. destruct x as [|[] [a|]]; cbn in E; injection E as <- _ _; split; intros; reflexivity.
  - intros v x st st' r _ E. destruct x as [|[] [a|]]; cbn in E; injection E as _ <-; discriminate.
  - intros v [|[] [a|]] st; eexists; reflexivity.
Qed.

(** Walk knows all nodes of the tree above. *)
Example C113_preorder_ex : forall m, Reach exTree m -> m <> NNil /\ parts m <> None.
Proof.
  assert (L : forall n m, parts n = Some [] -> n <> NNil -> Reach n m -> m <> NNil /\ parts m <> None).
  { intros n m E N R. destruct R as [n|n ps p m E2 I R]; [split; congruence|]. rewrite E in E2. injection E2 as <-. destruct I. }
  intros m R. inversion R as [|? ps p ? E I R1]; subst; [split; discriminate|]. injection E as <-. destruct I as [<-|[]].
  inversion R1 as [|? ps p ? E I R2]; subst; [split; discriminate|]. injection E as <-. destruct I as [<-|[<-|[]]]; eapply L; eauto; try reflexivity; discriminate.
Qed.
