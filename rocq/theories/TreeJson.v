(** The document of a tree: when there is one, whether it can be written, and whether it
    determines the tree. *)
From Coq Require Import String Ascii.
From Verif Require Import Base Utf8 Token Ext Strconv Lexer Ast LexSpec ParseShape StrconvProofs Props_Text Cli Json TreeSpec JsonSpec Utf8Proofs JsonProofs JsonEnc.
Open Scope string_scope.
Open Scope list_scope.
Open Scope Z_scope.

(** ** Induction over trees *)

Definition kids (n : node) : list node :=
  match n with
  | NEntry _ _ v _ | NRule _ _ v _ => [v]
  | NTypeChoice _ _ a b | NGroupChoice _ _ a b | NSizeOp _ _ a b | NBits _ _ a b | NComparator _ _ _ a b | NRange _ _ a b => [a; b]
  | NUnwrap _ _ a | NTag _ _ _ _ a | NEnumeration _ _ a | NOptional _ _ a | NNMOccurrence _ _ _ _ a | NRegexp _ _ _ a | NBadNode _ _ a _ => [a]
  | NGroup _ l | NMap _ _ l | NArray _ l | NCDDL _ l => l
  | _ => []
  end.

Lemma kids_child : forall n m, In m (kids n) <-> child n m.
Proof.
  intros n m. split.
  - intros H. destruct n; simpl in H; try contradiction; try (destruct H as [<-|H]; [constructor|]); try (destruct H as [<-|H]; [constructor|]); try contradiction; now constructor.
  - intros H. inversion H; subst; simpl; auto.
Qed.

Lemma kids_ind : forall P : node -> Prop, (forall n, Forall P (kids n) -> P n) -> forall n, P n.
Proof.
  intros P H. fix IH 1. intros n. apply H. destruct n; cbn [kids]; repeat (apply Forall_cons; [apply IH|]); try apply Forall_nil.
  - induction entries as [|a l IHl]; constructor; [apply IH|exact IHl].
  - induction rules as [|a l IHl]; constructor; [apply IH|exact IHl].
  - induction rules as [|a l IHl]; constructor; [apply IH|exact IHl].
  - induction rules as [|a l IHl]; constructor; [apply IH|exact IHl].
Qed.

Lemma node_ind2 : forall P : node -> Prop, (forall n, (forall m, child n m -> P m) -> P n) -> forall n, P n.
Proof. intros P H. apply kids_ind. intros n F. apply H. intros m HC. rewrite Forall_forall in F. apply F. now apply kids_child. Qed.

(** ** When there is a document *)

Lemma fields_none : forall L, (exists f, In f L /\ snd f = None) -> fields L = None.
Proof.
  induction L as [|[k [v|]] L IH]; intros (f & HI & HN); [contradiction| |reflexivity]. cbn [fields]. destruct HI as [<-|HI]; [discriminate|].
  rewrite IH; [reflexivity|eauto].
Qed.

Lemma struct_none : forall L, (exists f, In f L /\ snd f = None) -> struct L = None.
Proof. intros L H. unfold struct. now rewrite fields_none. Qed.

Lemma elems_none : forall l, In None l -> elems l = None.
Proof. induction l as [|[v|] l IH]; intros H; [contradiction| |reflexivity]. cbn [elems]. destruct H as [H|H]; [discriminate|]. now rewrite IH. Qed.

Lemma slice_none : forall l, In None l -> slice l = None.
Proof. intros l H. unfold slice. rewrite elems_none by auto. destruct l; [contradiction|reflexivity]. Qed.

Lemma fields_some : forall L, Forall (fun f : string * option json => snd f <> None) L -> fields L <> None.
Proof. induction L as [|[k [v|]] L IH]; intros H; inversion H; subst; cbn [fields] in *; try discriminate; [|simpl in *; congruence]. destruct (fields L); [discriminate|]. now apply IH. Qed.

Lemma struct_some : forall L, Forall (fun f : string * option json => snd f <> None) L -> struct L <> None.
Proof. intros L H. unfold struct. apply fields_some in H. destruct (fields L); [discriminate|congruence]. Qed.

Lemma elems_some : forall l, Forall (fun o : option json => o <> None) l -> elems l <> None.
Proof. induction l as [|[v|] l IH]; intros H; inversion H; subst; cbn [elems] in *; try discriminate; [|congruence]. destruct (elems l); [discriminate|]. now apply IH. Qed.

Lemma slice_some : forall l, Forall (fun o : option json => o <> None) l -> slice l <> None.
Proof. intros l H. unfold slice. destruct l; [discriminate|]. apply elems_some in H. destruct (elems (o :: l)); [discriminate|congruence]. Qed.

Lemma jPtr_some : forall A (f : A -> option json) o, (forall a, f a <> None) -> jPtr f o <> None.
Proof. intros A f [a|] H; simpl; [apply H|discriminate]. Qed.

Lemma struct_exists : forall L, Exists (fun f : string * option json => snd f = None) L -> struct L = None.
Proof. intros L H. apply struct_none. apply Exists_exists in H. exact H. Qed.

Lemma child_none : forall J n m, child n m -> treeJson J m = None -> treeJson J n = None.
Proof.
  intros J n m H E.
  assert (KL : forall l, In m l -> slice (map (treeJson J) l) = None) by (intros l HI; apply slice_none; rewrite <- E; now apply in_map).
  assert (KE : forall l, In m l -> elems (map (treeJson J) l) = None) by (intros l HI; apply elems_none; rewrite <- E; now apply in_map).
  inversion H; subst; cbn [treeJson]; rewrite ?E, ?KL, ?KE by assumption; apply struct_exists;
    repeat (first [apply Exists_cons_hd; reflexivity|apply Exists_cons_tl]).
Qed.

Lemma within_none : forall J n m, within n m -> treeJson J m = None -> treeJson J n = None.
Proof. intros J n m H. induction H; auto. intros E. eapply child_none; eauto. Qed.

Lemma jPos_some : forall p, jPos p <> None. Proof. discriminate. Qed.
Lemma jRange_some : forall p, jRange p <> None. Proof. discriminate. Qed.
Lemma jIdent_some : forall p, jIdent p <> None. Proof. discriminate. Qed.
Lemma jComment_some : forall p, jComment p <> None. Proof. discriminate. Qed.
Lemma jUint_some : forall p, jUint p <> None. Proof. discriminate. Qed.

(** There is a document unless a float literal has no text. *)
Lemma tree_some : forall J n, (forall r t b, within n (NFloatLiteral r t b) -> jFloat J b <> None) -> treeJson J n <> None.
Proof.
  intros J. induction n as [n IH] using node_ind2. intros HF.
  assert (K : forall m, child n m -> treeJson J m <> None) by (intros m HC; apply IH; auto; intros r t b HW; eapply HF; eapply w_child; eauto).
  destruct n; cbn [treeJson]; try discriminate;
    try (apply struct_some; repeat (apply Forall_cons; [cbn [snd]|]); try apply Forall_nil;
         try (apply K; constructor); try (apply jPtr_some; discriminate); try discriminate).
  - apply slice_some. apply Forall_forall. intros o H. apply in_map_iff in H as (c & <- & _). discriminate.
  - specialize (HF r t bits (w_self _)). destruct (jFloat J bits); congruence.
  - apply slice_some. apply Forall_forall. intros o H. apply in_map_iff in H as (c & <- & H). apply K. now constructor.
  - apply slice_some. apply Forall_forall. intros o H. apply in_map_iff in H as (c & <- & H). apply K. now constructor.
  - apply slice_some. apply Forall_forall. intros o H. apply in_map_iff in H as (c & <- & H). apply K. now constructor.
  - assert (E : elems (map (treeJson J) rules) <> None).
    { apply elems_some. apply Forall_forall. intros o H. apply in_map_iff in H as (c & <- & H). apply K. now constructor. }
    destruct (elems (map (treeJson J) rules)); congruence.
Qed.

Lemma tree_none : forall J n, treeJson J n = None <-> exists r t b, within n (NFloatLiteral r t b) /\ jFloat J b = None.
Proof.
  intros J n. split.
  - intros H. assert (D : forall n, (exists r t b, within n (NFloatLiteral r t b) /\ jFloat J b = None) \/ (forall r t b, within n (NFloatLiteral r t b) -> jFloat J b <> None)).
    { clear. induction n as [n IH] using node_ind2.
      assert (L : forall l, (forall m, In m l -> child n m) -> (exists r t b m, In m l /\ within m (NFloatLiteral r t b) /\ jFloat J b = None) \/ forall m, In m l -> forall r t b, within m (NFloatLiteral r t b) -> jFloat J b <> None).
      { induction l as [|a l IHl]; intros HL; [right; intros m []|]. destruct (IH a) as [(r & t & b & HW & HN)|HA]; [apply HL; left; auto|left; exists r, t, b, a; simpl; auto|].
        destruct IHl as [(r & t & b & m & HI & HW & HN)|HR]; [intros; apply HL; right; auto|left; exists r, t, b, m; simpl; auto|].
        right. intros m [<-|HI]; [exact HA|exact (HR m HI)]. }
      destruct (L (kids n)) as [(r & t & b & m & HI & HW & HN)|HR]; [intros m; apply kids_child|left; exists r, t, b; split; auto; eapply w_child; [apply kids_child; eauto|auto]|].
      assert (S : (exists r t b, n = NFloatLiteral r t b /\ jFloat J b = None) \/ (forall r t b, n = NFloatLiteral r t b -> jFloat J b <> None)).
      { destruct n; try (right; intros; discriminate). destruct (jFloat J bits) eqn:E; [right; intros ? ? ? E'; inversion E'; subst; congruence|left; exists r, t, bits; auto]. }
      destruct S as [(r & t & b & -> & HN)|S]; [left; exists r, t, b; split; auto; constructor|]. right. intros r t b HW. inversion HW as [|? m ? HC HW']; subst; [eapply S; eauto|].
      eapply HR; eauto. now apply kids_child. }
    destruct (D n) as [|HA]; auto. exfalso. revert H. now apply tree_some.
  - intros (r & t & b & HW & HN). eapply within_none; eauto. cbn [treeJson]. rewrite HN. reflexivity.
Qed.

(** ** The document can be written *)

(** All strings and names of a document satisfy [Q]; the numbers are numbers. *)
Inductive All (Q : bytes -> Prop) : json -> Prop :=
| al_null : All Q JNull
| al_bool b : All Q (JBool b)
| al_num t : NumberText t -> All Q (JNum t)
| al_str s : Q s -> All Q (JStr s)
| al_arr l : Forall (All Q) l -> All Q (JArr l)
| al_obj m : Forall (fun a => Q (fst a) /\ All Q (snd a)) m -> All Q (JObj m).

Definition asciiB (s : bytes) : bool := forallb (fun b => (0 <=? b) && (b <? 128)) s.

Lemma str_bytes : forall k, bytesOk (str k).
Proof.
  induction k as [|c k IH]; constructor; auto. destruct c as [[] [] [] [] [] [] [] []]; vm_compute; split; congruence.
Qed.

Lemma fmt_number : forall n, NumberText (fmtD n).
Proof.
  assert (P : forall n, 0 <= n -> fmtD n = [48] \/ exists d r, fmtD n = d :: r /\ 49 <= d <= 57 /\ digits r).
  { intros n HN. destruct (Z.eq_dec n 0) as [->|NZ]; [left; reflexivity|right]. unfold fmtD. replace (n <? 0) with false by lia.
    assert (HB : 0 <= n < 2 ^ Z.of_nat (S (Z.to_nat (Z.log2 n)))).
    { rewrite Nat2Z.inj_succ, Z2Nat.id by (apply Z.log2_nonneg). pose proof (Z.log2_spec n). lia. }
    destruct (digitsPos_value _ n [] HB ltac:(lia)) as (ds & E & HNe & _ & HC & HH). rewrite app_nil_r in E. rewrite E.
    destruct ds as [|d ds]; [congruence|]. inversion HC; subst. specialize (HH ltac:(lia)). cbn [hd] in HH. exists d, ds. repeat split; auto; lia. }
  intros n. destruct (Z_lt_ge_dec n 0) as [L|L].
  - exists [45], (fmtD (- n)), [], []. rewrite fmt_neg, !app_nil_r by auto. repeat split; auto. apply P. lia.
  - exists [], (fmtD n), [], []. rewrite !app_nil_r. repeat split; auto. apply P. lia.
Qed.

(** The strings stored in a node itself. *)
Definition ownPtr {A} (f : A -> list bytes) (o : option A) : list bytes := match o with Some a => f a | None => [] end.
Definition ownComment (c : comment) : list bytes := [pFile (cPos c); cText c].
Definition ownUint (u : uintLit) : list bytes := [pFile (uPos u)].

Definition own (n : node) : list bytes :=
  match n with
  | NNil | NTypedNil _ => []
  | NIdentifier i => [pFile (iPos i); iName i]
  | NComment c => ownComment c
  | NCommentGroup l => flat_map ownComment l
  | NBooleanType p _ | NTstrType p _ | NFloatType p _ _ | NIntegerType p _ | NNegativeIntegerType p _ | NIntegerLiteral p _ _
  | NBstrType p _ | NBytesType p _ | NNullType p _ => [pFile p]
  | NTextLiteral p _ s => [pFile p; s]
  | NBooleanLiteral r _ | NFloatLiteral r _ _ | NUintType r _ => [pFile (rStart r); pFile (rEnd r)]
  | NUintLiteral u => ownUint u
  | NEntry p i _ c | NRule p i _ c => [pFile p; pFile (iPos i); iName i] ++ ownPtr ownComment c
  | NTypeChoice p _ _ _ | NGroupChoice p _ _ _ | NUnwrap p _ _ | NEnumeration p _ _ | NOptional p _ _ | NSizeOp p _ _ _ | NBits p _ _ _
  | NRange p _ _ _ | NGroup p _ | NMap p _ _ | NArray p _ | NCDDL p _ => [pFile p]
  | NTag p _ a b _ | NNMOccurrence p _ a b _ => pFile p :: ownPtr ownUint a ++ ownPtr ownUint b
  | NRegexp p _ b _ => pFile p :: ownPtr (fun b => [pFile (fst b)]) b
  | NComparator p _ op _ _ => [pFile p; op]
  | NBadNode p _ _ e => [pFile p; pFile e]
  end.

Definition numbersOk (J : JsonExt) : Prop := forall b t, jFloat J b = Some t -> NumberText t.

Section Strings.
Variable Q : bytes -> Prop.
Hypothesis QK : forall k, asciiB (str k) = true -> Q (str k).

Definition W (o : option json) : Prop := forall v, o = Some v -> All Q v.

Lemma W_struct : forall L, Forall (fun f : string * option json => asciiB (str (fst f)) = true /\ W (snd f)) L -> W (struct L).
Proof.
  intros L H v E. unfold struct in E. destruct (fields L) as [m|] eqn:EF; [|discriminate]. inversion E; subst. constructor. clear E.
  revert m EF. induction L as [|[k o] L IH]; intros m EF; cbn [fields] in EF; [inversion EF; constructor|]. inversion H; subst. destruct o as [v|]; [|discriminate].
  destruct (fields L) as [m'|]; [|discriminate]. inversion EF; subst. constructor; [|auto]. split; [now apply QK|]. now apply H2.
Qed.

Lemma W_elems : forall l m, Forall W l -> elems l = Some m -> Forall (All Q) m.
Proof.
  induction l as [|[v|] l IH]; intros m H E; cbn [elems] in E; [inversion E; constructor| |discriminate]. destruct (elems l) as [m'|]; [|discriminate].
  inversion E; subst. inversion H; subst. constructor; auto.
Qed.

Lemma W_slice : forall l, Forall W l -> W (slice l).
Proof.
  intros l H v E. unfold slice in E. destruct l as [|o l]; [inversion E; constructor|]. destruct (elems (o :: l)) as [m|] eqn:EE; [|discriminate].
  inversion E; subst. constructor. eapply W_elems; eauto.
Qed.

Lemma W_null : W (Some JNull). Proof. intros v E. inversion E. constructor. Qed.
Lemma W_bool : forall b, W (Some (JBool b)). Proof. intros b v E. inversion E. constructor. Qed.
Lemma W_int : forall n, W (jInt n). Proof. intros n v E. inversion E. constructor. apply fmt_number. Qed.
Lemma W_tok : forall t, W (jTok t). Proof. intros. apply W_int. Qed.
Lemma W_text : forall s, Q s -> W (jText s). Proof. intros s H v E. inversion E; subst. now constructor. Qed.

Ltac wfields := apply W_struct; repeat (apply Forall_cons; [cbn [fst snd]; split; [reflexivity|]|]); try apply Forall_nil; auto using W_int, W_tok, W_text, W_bool, W_null.

Lemma W_pos : forall p, Q (pFile p) -> W (jPos p). Proof. intros. unfold jPos. wfields. Qed.
Lemma W_range : forall r, Q (pFile (rStart r)) -> Q (pFile (rEnd r)) -> W (jRange r). Proof. intros. unfold jRange. wfields; now apply W_pos. Qed.
Lemma W_ident : forall i, Q (pFile (iPos i)) -> Q (iName i) -> W (jIdent i). Proof. intros. unfold jIdent. wfields. now apply W_pos. Qed.
Lemma W_comment : forall c, Q (pFile (cPos c)) -> Q (cText c) -> W (jComment c). Proof. intros. unfold jComment. wfields. now apply W_pos. Qed.
Lemma W_uint : forall u, Q (pFile (uPos u)) -> W (jUint u). Proof. intros. unfold jUint. wfields. now apply W_pos. Qed.

Lemma tree_all : forall J n, numbersOk J -> (forall m, within n m -> Forall Q (own m)) -> W (treeJson J n).
Proof.
  intros J n HJ. induction n as [n IH] using node_ind2. intros HO.
  assert (K : forall m, child n m -> W (treeJson J m)) by (intros m HC; apply IH; auto; intros k HW; apply HO; eapply w_child; eauto).
  assert (KL : forall l, (forall m, In m l -> child n m) -> Forall W (map (treeJson J) l)) by (intros l HL; apply Forall_forall; intros o HI; apply in_map_iff in HI as (m & <- & HI); auto).
  assert (F : Forall Q (own n)) by (apply HO; constructor). clear IH HO.
  destruct n; cbn [treeJson own app] in *; unfold ownComment, ownUint in *; repeat match goal with H : Forall Q (_ :: _) |- _ => inversion H; clear H; subst end;
    auto using W_null, W_ident, W_comment, W_uint;
    try (wfields; auto using W_pos, W_range, W_ident; try (apply K; constructor); try (apply W_slice, KL; intros; now constructor)).
  - apply W_slice. apply Forall_forall. intros o HI. apply in_map_iff in HI as (c & <- & HI). rewrite Forall_forall in F. apply W_comment; apply F; apply in_flat_map; exists c; simpl; auto.
  - destruct (jFloat J bits) eqn:EJ; [|discriminate]. intros v E. inversion E; subst. constructor. eapply HJ; eauto.
  - destruct tc as [c|]; [|apply W_null]. cbn [ownPtr] in *. repeat match goal with H : Forall Q (_ :: _) |- _ => inversion H; clear H; subst end. now apply W_comment.
  - destruct major as [u|]; [|apply W_null]. cbn [ownPtr app] in *. repeat match goal with H : Forall Q (_ :: _) |- _ => inversion H; clear H; subst end. now apply W_uint.
  - apply Forall_app in H2 as [_ H2]. destruct number as [u|]; [|apply W_null]. cbn [ownPtr app] in *. repeat match goal with H : Forall Q (_ :: _) |- _ => inversion H; clear H; subst end. now apply W_uint.
  - apply Forall_app in H2 as [H2 _]. destruct n as [u|]; [|apply W_null]. cbn [ownPtr app] in *. repeat match goal with H : Forall Q (_ :: _) |- _ => inversion H; clear H; subst end. now apply W_uint.
  - apply Forall_app in H2 as [_ H2]. destruct m as [u|]; [|apply W_null]. cbn [ownPtr app] in *. repeat match goal with H : Forall Q (_ :: _) |- _ => inversion H; clear H; subst end. now apply W_uint.
  - destruct base as [[q u]|]; [|apply W_null]. cbn [ownPtr fst snd jPtr] in *. repeat match goal with H : Forall Q (_ :: _) |- _ => inversion H; clear H; subst end. wfields. now apply W_pos.
  - destruct tc as [c|]; [|apply W_null]. cbn [ownPtr] in *. repeat match goal with H : Forall Q (_ :: _) |- _ => inversion H; clear H; subst end. now apply W_comment.
  - destruct (elems (map (treeJson J) rules)) as [m|] eqn:E; [|discriminate]. intros v E'. inversion E'; subst. constructor. eapply W_elems; [|eauto]. apply KL. intros; now constructor.
Qed.

End Strings.

Lemma all_writable : forall v, All bytesOk v -> Writable v.
Proof.
  induction v using json_rect2; intros A; inversion A; subst; constructor; auto.
  - rewrite Forall_forall in *. auto.
  - rewrite Forall_forall in *. intros a HI. match goal with K : forall x, In x m -> _ /\ _ |- _ => destruct (K a HI) end. split; auto.
Qed.

Lemma tree_writable : forall J n v, numbersOk J -> (forall m, within n m -> Forall bytesOk (own m)) -> treeJson J n = Some v -> Writable v.
Proof. intros J n v HJ HO E. apply all_writable. revert v E. apply (tree_all bytesOk); auto. intros k _. apply str_bytes. Qed.

(** Repair leaves UTF-8 alone. *)
Lemma repaired_id : forall v v', All Utf8Text v -> Repaired v v' -> v = v'.
Proof.
  induction v using json_rect2; intros v' A R; inversion A as [| | | |? HA|? HA]; inversion R as [| | |? ? R1|? ? R1|? ? R1]; subst; auto; f_equal.
  - eapply repair_func; [|eassumption]. now apply repair_id.
  - clear A R. induction R1; auto. inversion H; inversion HA; subst. f_equal; auto.
  - clear A R. induction R1 as [|[k v] [k' v'] m m' [E1 E2] _ IH2]; auto. inversion H; inversion HA as [|? ? [A1 A2] A3]; subst. cbn [fst snd] in *.
    f_equal; auto. f_equal; auto. eapply repair_func; [|eassumption]. now apply repair_id.
Qed.

Lemma repaired_nesting : forall v v', Repaired v v' -> nesting v' = nesting v.
Proof.
  induction v using json_rect2; intros v' R; inversion R as [| | | |? ? R1|? ? R1]; subst; auto; cbn [nesting]; do 2 f_equal; clear R.
  - induction R1; auto. inversion H; subst. cbn [map]. f_equal; auto.
  - induction R1 as [|[k v] [k' v'] m m' [E1 E2] _ IH2]; auto. inversion H; subst. cbn [fst snd map] in *. f_equal; auto.
Qed.

(** ** The document determines the tree *)

Fixpoint untyped (n : node) : node :=
  match n with
  | NTypedNil _ => NNil
  | NEntry p i v c => NEntry p i (untyped v) c
  | NRule p i v c => NRule p i (untyped v) c
  | NTypeChoice p t a b => NTypeChoice p t (untyped a) (untyped b)
  | NGroupChoice p t a b => NGroupChoice p t (untyped a) (untyped b)
  | NUnwrap p t a => NUnwrap p t (untyped a)
  | NTag p t a b i => NTag p t a b (untyped i)
  | NEnumeration p t v => NEnumeration p t (untyped v)
  | NOptional p t i => NOptional p t (untyped i)
  | NNMOccurrence p t a b i => NNMOccurrence p t a b (untyped i)
  | NSizeOp p t a b => NSizeOp p t (untyped a) (untyped b)
  | NRegexp p t b r => NRegexp p t b (untyped r)
  | NBits p t a b => NBits p t (untyped a) (untyped b)
  | NComparator p t o a b => NComparator p t o (untyped a) (untyped b)
  | NRange p t a b => NRange p t (untyped a) (untyped b)
  | NGroup p l => NGroup p (map untyped l)
  | NMap p t l => NMap p t (map untyped l)
  | NArray p l => NArray p (map untyped l)
  | NBadNode p t b e => NBadNode p t (untyped b) e
  | NCDDL p l => NCDDL p (map untyped l)
  | n => n
  end.

(** Kinds with the same fields are told apart by their token or their position. *)
Definition proper (n : node) : Prop :=
  match n with
  | NBooleanType _ t => t = BOOL
  | NTstrType _ t => t = TSTR \/ t = TEXT
  | NTextLiteral _ t _ => t = TEXT_LITERAL
  | NIntegerLiteral _ t _ => t = INT
  | NIntegerType _ t => t = INT
  | NNegativeIntegerType _ t => t = NINT
  | NBstrType _ t => t = BSTR
  | NBytesType _ t => t = BYTES
  | NNullType _ t => t = NULL \/ t = NIL
  | NUnwrap _ t _ => t = UNWRAP
  | NOptional _ t _ => t = OPTIONAL
  | NRule p _ _ _ => p = zeroPos
  | NEntry p _ _ _ => p <> zeroPos
  | NCDDL p _ => p = zeroPos
  | NArray p _ => p <> zeroPos
  | NUintLiteral _ | NGroupChoice _ _ _ _ => False
  | _ => True
  end.

Lemma str_inj : forall a b, str a = str b -> a = b.
Proof.
  induction a as [|c a IH]; intros [|d b] H; auto; try discriminate. cbn [str] in H. injection H as H1 H2. f_equal; auto.
  apply N2Z.inj in H1. rewrite <- (ascii_N_embedding c), <- (ascii_N_embedding d). now f_equal.
Qed.

Lemma fields_same : forall L L' m, fields L = Some m -> fields L' = Some m -> L = L'.
Proof.
  induction L as [|[k o] L IH]; intros [|[k' o'] L'] m H H'; auto; cbn [fields] in *.
  - destruct o' as [v'|]; [|discriminate]. destruct (fields L'); [|discriminate]. congruence.
  - destruct o as [v|]; [|discriminate]. destruct (fields L); [|discriminate]. congruence.
  - destruct o as [v|], o' as [v'|]; try discriminate. destruct (fields L) as [m1|] eqn:E1; [|discriminate]. destruct (fields L') as [m2|] eqn:E2; [|discriminate].
    inversion H; subst. inversion H'; subst. f_equal; [f_equal; now apply str_inj|]. eapply IH; eauto.
Qed.

Lemma struct_same : forall L L', struct L = struct L' -> struct L <> None -> L = L'.
Proof.
  intros L L' E N. unfold struct in *. destruct (fields L) as [m|] eqn:E1; [|congruence]. destruct (fields L') as [m'|] eqn:E2; [|discriminate]. inversion E; subst. eapply fields_same; eauto.
Qed.

Lemma struct_obj : forall L, struct L <> Some JNull.
Proof. intros L E. unfold struct in E. destruct (fields L); discriminate. Qed.

Lemma elems_same : forall l l', elems l = elems l' -> elems l <> None -> l = l'.
Proof.
  induction l as [|[v|] l IH]; intros [|[v'|] l'] E N; auto; cbn [elems] in *; try congruence.
  - destruct (elems l'); discriminate.
  - destruct (elems l); discriminate.
  - destruct (elems l) as [m|] eqn:E1; [|congruence]. destruct (elems l') as [m'|] eqn:E2; [|discriminate]. inversion E; subst. f_equal. apply IH; congruence.
Qed.

Lemma slice_same : forall l l', slice l = slice l' -> slice l <> None -> l = l'.
Proof.
  intros l l' E N. unfold slice in *. destruct l as [|o l], l' as [|o' l']; auto.
  - destruct (elems (o' :: l')); discriminate.
  - destruct (elems (o :: l)); discriminate.
  - apply elems_same; destruct (elems (o :: l)) eqn:E1, (elems (o' :: l')) eqn:E2; congruence.
Qed.

Lemma pair_cons : forall (k : string) (x : option json) L k' x' L', (k, x) :: L = (k', x') :: L' -> x = x' /\ L = L'.
Proof. intros. inversion H; auto. Qed.

Ltac split_fields E := repeat (apply pair_cons in E as [? E]).

Lemma jInt_inj : forall a b, jInt a = jInt b -> a = b.
Proof. intros a b H. inversion H. now apply fmt_inj. Qed.

Lemma jTok_inj : forall a b, jTok a = jTok b -> a = b.
Proof.
  intros a b H. apply jInt_inj in H. assert (K : forall t, nth (Z.to_nat (tokIdx t)) allTokens EOF = t) by (intros t; destruct t; reflexivity).
  rewrite <- (K a), <- (K b). now rewrite H.
Qed.

Lemma jText_inj : forall a b, jText a = jText b -> a = b.
Proof. intros a b H. now inversion H. Qed.

Lemma jPos_inj : forall p q, jPos p = jPos q -> p = q.
Proof.
  intros p q H. apply struct_same in H; [|discriminate]. split_fields H. destruct p, q. cbn in *.
  f_equal; auto using jText_inj, jInt_inj.
Qed.

Lemma jRange_inj : forall p q, jRange p = jRange q -> p = q.
Proof. intros p q H. apply struct_same in H; [|discriminate]. split_fields H. destruct p as [x y], q as [x' y']. cbn [rStart rEnd] in *. f_equal; auto using jPos_inj. Qed.

Lemma jIdent_inj : forall p q, jIdent p = jIdent q -> p = q.
Proof. intros p q H. apply struct_same in H; [|discriminate]. split_fields H. destruct p as [x y], q as [x' y']. cbn [iPos iName] in *. f_equal; auto using jPos_inj, jText_inj. Qed.

Lemma jComment_inj : forall p q, jComment p = jComment q -> p = q.
Proof. intros p q H. apply struct_same in H; [|discriminate]. split_fields H. destruct p as [x y], q as [x' y']. cbn [cPos cText] in *. f_equal; auto using jPos_inj, jText_inj. Qed.

Lemma jUint_inj : forall p q, jUint p = jUint q -> p = q.
Proof. intros p q H. apply struct_same in H; [|discriminate]. split_fields H. destruct p as [x y z], q as [x' y' z']. cbn [uPos uTok uVal] in *. f_equal; auto using jPos_inj, jTok_inj, jInt_inj. Qed.

Lemma jPtr_inj : forall A (f : A -> option json) o o', (forall a b, f a = f b -> a = b) -> (forall a, f a <> Some JNull) -> jPtr f o = jPtr f o' -> o = o'.
Proof. intros A f [a|] [b|] H N E; cbn [jPtr] in E; auto; [f_equal; auto|exfalso; eapply N; eauto|exfalso; symmetry in E; eapply N; eauto]. Qed.

Lemma jCommentPtr_inj : forall o o', jPtr jComment o = jPtr jComment o' -> o = o'.
Proof. intros o o'. apply jPtr_inj; [apply jComment_inj|discriminate]. Qed.
Lemma jUintPtr_inj : forall o o', jPtr jUint o = jPtr jUint o' -> o = o'.
Proof. intros o o'. apply jPtr_inj; [apply jUint_inj|discriminate]. Qed.
Lemma jBasePtr_inj : forall o o' : option (position * token), jPtr (fun b => struct [("Pos", jPos (fst b)); ("Token", jTok (snd b))]) o = jPtr (fun b => struct [("Pos", jPos (fst b)); ("Token", jTok (snd b))]) o' -> o = o'.
Proof.
  intros o o'. apply jPtr_inj; [|discriminate]. intros [p t] [q u] H. apply struct_same in H; [|discriminate]. split_fields H. cbn [fst snd] in *. f_equal; auto using jPos_inj, jTok_inj.
Qed.

(** The names of the members of a node's object, in order. *)
Definition keys (n : node) : list string :=
  match n with
  | NNil | NTypedNil _ => []
  | NIdentifier _ => ["Pos"; "Name"]
  | NComment _ => ["Pos"; "Text"]
  | NCommentGroup _ => ["List"]
  | NBooleanLiteral _ _ => ["Range"; "Bool"]
  | NUintType _ _ => ["Range"; "Token"]
  | NBooleanType _ _ | NTstrType _ _ | NIntegerType _ _ | NNegativeIntegerType _ _ | NBstrType _ _ | NBytesType _ _ | NNullType _ _ => ["Pos"; "Token"]
  | NTextLiteral _ _ _ | NUintLiteral _ | NIntegerLiteral _ _ _ => ["Pos"; "Token"; "Literal"]
  | NFloatType _ _ _ => ["Pos"; "Token"; "Base"]
  | NFloatLiteral _ _ _ => ["Range"; "Token"; "Literal"]
  | NEntry _ _ _ _ | NRule _ _ _ _ => ["Pos"; "Name"; "Value"; "TrailingComment"]
  | NTypeChoice _ _ _ _ | NGroupChoice _ _ _ _ => ["Pos"; "Token"; "First"; "Second"]
  | NUnwrap _ _ _ | NOptional _ _ _ => ["Pos"; "Token"; "Item"]
  | NTag _ _ _ _ _ => ["Pos"; "Token"; "Major"; "TagNumber"; "Item"]
  | NEnumeration _ _ _ => ["Pos"; "Token"; "Value"]
  | NNMOccurrence _ _ _ _ _ => ["Pos"; "Token"; "N"; "M"; "Item"]
  | NSizeOp _ _ _ _ => ["Pos"; "Token"; "Size"; "Type"]
  | NRegexp _ _ _ _ => ["Pos"; "Token"; "Base"; "Regex"]
  | NBits _ _ _ _ => ["Pos"; "Token"; "Base"; "Contstraint"]
  | NComparator _ _ _ _ _ => ["Pos"; "Token"; "Operator"; "Left"; "Right"]
  | NRange _ _ _ _ => ["Pos"; "Token"; "From"; "To"]
  | NGroup _ _ => ["Pos"; "Entries"]
  | NMap _ _ _ => ["Pos"; "Token"; "Rules"]
  | NArray _ _ | NCDDL _ _ => ["Pos"; "Rules"]
  | NBadNode _ _ _ _ => ["Pos"; "Token"; "Base"; "EndPos"]
  end.

Lemma struct_keys : forall L v, struct L = Some v -> exists m, v = JObj m /\ map fst m = map (fun f => str (fst f)) L.
Proof.
  intros L v E. unfold struct in E. destruct (fields L) as [m|] eqn:EF; [|discriminate]. inversion E; subst. exists m. split; auto. clear E. revert m EF.
  induction L as [|[k o] L IH]; intros m EF; cbn [fields] in EF; [now inversion EF|]. destruct o as [v|]; [|discriminate]. destruct (fields L) as [m'|]; [|discriminate].
  inversion EF; subst. cbn [map fst]. f_equal. now apply IH.
Qed.

Lemma tree_keys : forall J n v, treeJson J n = Some v -> (v = JNull /\ keys n = []) \/ exists m, v = JObj m /\ map fst m = map str (keys n) /\ keys n <> [].
Proof.
  intros J n v E. destruct n; cbn [treeJson] in E; try (left; inversion E; auto; fail); right; apply struct_keys in E as (m' & -> & E); exists m'; rewrite E; repeat split; discriminate.
Qed.

Lemma map_inj : forall A B (f : A -> B), (forall a b, f a = f b -> a = b) -> forall l l', map f l = map f l' -> l = l'.
Proof. intros A B f HF. induction l as [|a l IH]; intros [|b l'] H; auto; try discriminate. apply (f_equal (fun x => (hd_error x, tl x))) in H. cbn in H. inversion H. f_equal; auto. Qed.

Definition floatsApart (J : JsonExt) : Prop := forall a b t, jFloat J a = Some t -> jFloat J b = Some t -> a = b.

Lemma tree_determined : forall J, floatsApart J -> forall a, (forall m, within a m -> proper m) -> forall b, (forall m, within b m -> proper m) ->
  treeJson J a = treeJson J b -> treeJson J a <> None -> untyped a = untyped b.
Proof.
  intros J HJ. induction a as [a IH] using node_ind2. intros PA b PB E N.
  assert (NA : forall m, child a m -> treeJson J m <> None) by (intros m HC HN; apply N; eapply child_none; eauto).
  assert (K : forall m k, child a m -> child b k -> treeJson J m = treeJson J k -> untyped m = untyped k).
  { intros m k HA HB EK. apply IH; auto; [intros x HW; apply PA; eapply w_child; eauto|intros x HW; apply PB; eapply w_child; eauto]. }
  assert (KL : forall l l', (forall m, In m l -> child a m) -> (forall m, In m l' -> child b m) -> map (treeJson J) l = map (treeJson J) l' -> map untyped l = map untyped l').
  { induction l as [|x l IHl]; intros [|y l'] HL HL' EL; try discriminate; auto. cbn [map] in *. injection EL as E1 E2. f_equal; [apply K; auto; [apply HL|apply HL']; left; auto|].
    apply IHl; auto; intros; [apply HL|apply HL']; right; auto. }
  assert (QA : proper a) by (apply PA; constructor). assert (QB : proper b) by (apply PB; constructor). clear IH PA PB.
  assert (EK : keys a = keys b).
  { destruct (treeJson J a) as [v|] eqn:E1; [|congruence]. symmetry in E. apply tree_keys in E1, E. destruct E1 as [[-> E1]|(m & -> & E1 & _)], E as [[E' E2]|(m' & E' & E2 & _)]; try discriminate; try congruence.
    inversion E'; subst. rewrite E1 in E2. revert E2. apply map_inj, str_inj. }
  destruct a; cbn [proper] in QA; try contradiction; destruct b; try discriminate EK; cbn [proper] in QB; try contradiction; cbn [treeJson] in E, N;
    lazymatch type of E with
    | Some JNull = Some JNull => reflexivity
    | Some JNull = _ => exfalso; symmetry in E; exact (struct_obj _ E)
    | _ = Some JNull => exfalso; exact (struct_obj _ E)
    | jIdent _ = jIdent _ => apply jIdent_inj in E; subst; reflexivity
    | jComment _ = jComment _ => apply jComment_inj in E; subst; reflexivity
    | _ => apply struct_same in E; [|exact N]; split_fields E
    end;
    repeat match goal with
    | H : jPos _ = jPos _ |- _ => apply jPos_inj in H
    | H : jRange _ = jRange _ |- _ => apply jRange_inj in H
    | H : jTok _ = jTok _ |- _ => apply jTok_inj in H
    | H : jText _ = jText _ |- _ => apply jText_inj in H
    | H : jInt _ = jInt _ |- _ => apply jInt_inj in H
    | H : jIdent _ = jIdent _ |- _ => apply jIdent_inj in H
    | H : jPtr jComment _ = jPtr jComment _ |- _ => apply jCommentPtr_inj in H
    | H : jPtr jUint _ = jPtr jUint _ |- _ => apply jUintPtr_inj in H
    | H : jPtr _ _ = jPtr _ _ |- _ => apply jBasePtr_inj in H
    end; subst; try contradiction; try (exfalso; intuition congruence);
    try (cbn [untyped]; f_equal; auto; apply K; auto; constructor).
  all: match goal with H : slice (map _ ?l) = slice _ |- _ => apply slice_same in H; [|intros X; apply N; rewrite X; apply struct_exists; repeat (first [apply Exists_cons_hd; reflexivity|apply Exists_cons_tl])] | _ => idtac end.
  - cbn [untyped]. f_equal. revert H. apply map_inj, jComment_inj.
  - congruence.
  - cbn [untyped]. f_equal. destruct (jFloat J bits) as [x|] eqn:E1, (jFloat J bits0) as [y|] eqn:E2; try discriminate; [inversion H1; subst; eapply HJ; eauto|].
    exfalso. apply N. rewrite ?E1. apply struct_exists. repeat (first [apply Exists_cons_hd; reflexivity|apply Exists_cons_tl]).
  - cbn [untyped]. f_equal. apply KL; auto; intros; now constructor.
  - cbn [untyped]. f_equal. apply KL; auto; intros; now constructor.
  - cbn [untyped]. f_equal. apply KL; auto; intros; now constructor.
  - cbn [untyped]. f_equal. apply KL; try (intros; now constructor). apply elems_same; destruct (elems (map (treeJson J) rules)) eqn:E1, (elems (map (treeJson J) rules0)) eqn:E2; try congruence.
    intros _. apply N. apply struct_exists. repeat (first [apply Exists_cons_hd; reflexivity|apply Exists_cons_tl]).
Qed.

(** ** The document is the one of the specification *)



Definition partJson (J : JsonExt) (p : part) : option json :=
  match p with
  | PInt n => jInt n
  | PText s => jText s
  | PBool b => Some (JBool b)
  | PFloat bits => match jFloat J bits with Some x => Some (JNum x) | None => None end
  | PPos p => jPos p
  | PRange r => jRange r
  | PIdent i => jIdent i
  | PComment c => jPtr jComment c
  | PComments l => slice (map jComment l)
  | PUint u => jPtr jUint u
  | PBase b => jPtr (fun b => struct [("Pos", jPos (fst b)); ("Token", jTok (snd b))]) b
  | PNode n => treeJson J n
  | PNodes l => slice (map (treeJson J) l)
  | PRules l => match elems (map (treeJson J) l) with Some m => Some (JArr m) | None => None end
  end.

Definition objJson (J : JsonExt) (l : list (string * part)) : option json := struct (map (fun f => (fst f, partJson J (snd f))) l).

Lemma tree_parts : forall J n, parts n <> [] -> treeJson J n = objJson J (parts n).
Proof. intros J n H. destruct n; try reflexivity; exfalso; apply H; reflexivity. Qed.

Lemma obj_exact : forall J l, (forall f, In f l -> forall v, partJson J (snd f) = Some v <-> Means J (snd f) v) ->
  forall v, objJson J l = Some v <-> exists ms, v = JObj ms /\ Obj J l ms.
Proof.
  intros J l H. unfold objJson, struct.
  assert (G : forall m, fields (map (fun f => (fst f, partJson J (snd f))) l) = Some m <-> Obj J l m).
  { induction l as [|[k p] l IH]; intros m; cbn [map fields fst snd].
    - split; intros E; inversion E; constructor.
    - specialize (IH (fun f HI => H f (or_intror HI))). pose proof (H (k, p) (or_introl eq_refl)) as HP. cbn [snd] in HP. split.
      + intros E. destruct (partJson J p) as [v|] eqn:EP; [|discriminate]. destruct (fields (map (fun f => (fst f, partJson J (snd f))) l)) as [m'|] eqn:EF; [|discriminate]. inversion E; subst.
        constructor; [now apply HP|now apply IH].
      + intros E. inversion E; subst. apply HP in H4. rewrite H4. apply IH in H5. now rewrite H5. }
  intros v. destruct (fields (map (fun f => (fst f, partJson J (snd f))) l)) as [m|] eqn:EF.
  - split; [intros E; inversion E; subst; exists m; split; auto; now apply G|]. intros (ms & -> & HO). apply G in HO. congruence.
  - split; [discriminate|]. intros (ms & -> & HO). apply G in HO. congruence.
Qed.

Lemma scalar_exact : forall J p, match p with PInt _ | PText _ | PBool _ | PFloat _ => True | _ => False end -> forall v, partJson J p = Some v <-> Means J p v.
Proof.
  intros J p HP v. destruct p; try contradiction; cbn [partJson]; try (split; intros E; inversion E; subst; constructor).
  split; [|intros E; inversion E; subst; match goal with K : jFloat _ _ = _ |- _ => now rewrite K end]. destruct (jFloat J bits) eqn:EJ; [|discriminate]. intros E. inversion E; subst. now constructor.
Qed.

Lemma pos_exact : forall J p v, partJson J (PPos p) = Some v <-> Means J (PPos p) v.
Proof.
  intros J p v. change (partJson J (PPos p)) with (objJson J (posParts p)). rewrite obj_exact.
  - split; [intros (ms & -> & HO); now constructor|intros E; inversion E; subst; eauto].
  - intros f HF w. apply scalar_exact. simpl in HF. repeat (destruct HF as [<-|HF]; [exact I|]). contradiction.
Qed.

Ltac each HF := simpl in HF; repeat (destruct HF as [<-|HF]; [first [apply pos_exact|apply scalar_exact; exact I]|]); contradiction.

Lemma flat_exact : forall J l, (forall f, In f l -> match snd f with PInt _ | PText _ | PBool _ | PFloat _ | PPos _ => True | _ => False end) ->
  forall v, objJson J l = Some v <-> exists ms, v = JObj ms /\ Obj J l ms.
Proof.
  intros J l H. apply obj_exact. intros f HF w. specialize (H f HF). destruct (snd f); try contradiction; try (apply scalar_exact; exact I). apply pos_exact.
Qed.

Ltac flat := let f := fresh in let HF := fresh in intros f HF; simpl in HF; repeat (destruct HF as [<-|HF]; [exact I|]); contradiction.

Lemma ident_exact : forall J i v, jIdent i = Some v <-> exists ms, v = JObj ms /\ Obj J (identParts i) ms.
Proof. intros J i v. change (jIdent i) with (objJson J (identParts i)). apply flat_exact. flat. Qed.
Lemma comment_exact : forall J c v, jComment c = Some v <-> exists ms, v = JObj ms /\ Obj J (commentParts c) ms.
Proof. intros J i v. change (jComment i) with (objJson J (commentParts i)). apply flat_exact. flat. Qed.
Lemma uint_exact : forall J c v, jUint c = Some v <-> exists ms, v = JObj ms /\ Obj J (uintParts c) ms.
Proof. intros J i v. change (jUint i) with (objJson J (uintParts i)). apply flat_exact. flat. Qed.
Lemma range_exact : forall J c v, jRange c = Some v <-> exists ms, v = JObj ms /\ Obj J (rangeParts c) ms.
Proof. intros J i v. change (jRange i) with (objJson J (rangeParts i)). apply flat_exact. flat. Qed.
Lemma type_exact : forall J p t v, struct [("Pos", jPos p); ("Token", jTok t)] = Some v <-> exists ms, v = JObj ms /\ Obj J (typeParts p t) ms.
Proof. intros J p t v. change (struct [("Pos", jPos p); ("Token", jTok t)]) with (objJson J (typeParts p t)). apply flat_exact. flat. Qed.

Lemma comments_exact : forall J l vs, elems (map jComment l) = Some vs <-> Comments J l vs.
Proof.
  intros J. induction l as [|c l IH]; intros vs; cbn [map elems].
  - split; intros E; inversion E; constructor.
  - split.
    + intros E. destruct (jComment c) as [v|] eqn:EC; [|discriminate]. apply (comment_exact J) in EC as (ms & -> & HO). destruct (elems (map jComment l)) as [m|]; [|discriminate]. inversion E; subst. constructor; auto. now apply IH.
    + intros E. inversion E; subst. assert (EC : jComment c = Some (JObj ms)) by (apply (comment_exact J); eauto). rewrite EC. apply IH in H3. now rewrite H3.
Qed.

Definition exact (J : JsonExt) (n : node) : Prop := forall v, treeJson J n = Some v <-> Doc J n v.

Lemma docs_exact : forall J l, Forall (exact J) l -> forall vs, elems (map (treeJson J) l) = Some vs <-> Docs J l vs.
Proof.
  intros J. induction l as [|n l IH]; intros HF vs; cbn [map elems].
  - split; intros E; inversion E; constructor.
  - inversion HF as [|? ? HN HL]; subst. specialize (IH HL). split.
    + intros E. destruct (treeJson J n) as [v|] eqn:EN; [|discriminate]. apply HN in EN. destruct (elems (map (treeJson J) l)) as [m|]; [|discriminate]. inversion E; subst. constructor; auto. now apply IH.
    + intros E. inversion E as [|? ? v ? HD HDs]; subst. apply HN in HD. rewrite HD. apply IH in HDs. now rewrite HDs.
Qed.

Lemma slice_iff : forall l v, slice l = Some v <-> (l = [] /\ v = JNull) \/ (l <> [] /\ exists vs, elems l = Some vs /\ v = JArr vs).
Proof.
  intros l v. unfold slice. destruct l as [|o l].
  - split; [intros E; inversion E; auto|intros [[_ ->]|[N _]]; congruence].
  - destruct (elems (o :: l)) as [m|].
    + split; [intros E; inversion E; subst; right; split; [discriminate|eauto]|intros [[N _]|(_ & vs & E & ->)]; congruence].
    + split; [discriminate|]. intros [[N _]|(_ & vs & E & ->)]; congruence.
Qed.

Lemma part_exact : forall J p, match p with PNode n => exact J n | PNodes l | PRules l => Forall (exact J) l | _ => True end ->
  forall v, partJson J p = Some v <-> Means J p v.
Proof.
  intros J p HP v. destruct p; try (apply scalar_exact; exact I); try apply pos_exact; cbn [partJson].
  - rewrite (range_exact J). split; [intros (ms & -> & HO); now constructor|intros E; inversion E; subst; eauto].
  - rewrite (ident_exact J). split; [intros (ms & -> & HO); now constructor|intros E; inversion E; subst; eauto].
  - destruct c as [c|]; cbn [jPtr]; [|split; intros E; inversion E; constructor]. rewrite (comment_exact J). split; [intros (ms & -> & HO); now constructor|intros E; inversion E; subst; eauto].
  - rewrite slice_iff. split.
    + intros [[E ->]|(NE & vs & E & ->)]; [destruct l; [constructor|discriminate]|]. constructor; [destruct l; [now elim NE|discriminate]|now apply comments_exact].
    + intros E. inversion E; subst; [left; auto|]. right. split; [destruct l; [congruence|discriminate]|]. exists vs. split; auto. now apply (comments_exact J).
  - destruct u as [c|]; cbn [jPtr]; [|split; intros E; inversion E; constructor]. rewrite (uint_exact J). split; [intros (ms & -> & HO); now constructor|intros E; inversion E; subst; eauto].
  - destruct b as [[p t]|]; cbn [jPtr fst snd]; [|split; intros E; inversion E; constructor]. rewrite (type_exact J). split; [intros (ms & -> & HO); now constructor|intros E; inversion E; subst; eauto].
  - rewrite (HP v). split; intros E; [now constructor|now inversion E].
  - rewrite slice_iff. split.
    + intros [[E ->]|(NE & vs & E & ->)]; [destruct l; [constructor|discriminate]|]. constructor; [destruct l; [now elim NE|discriminate]|now apply docs_exact].
    + intros E. inversion E; subst; [left; auto|]. right. split; [destruct l; [congruence|discriminate]|]. exists vs. split; auto. now apply docs_exact.
  - split.
    + intros E. destruct (elems (map (treeJson J) l)) as [m|] eqn:EE; [|discriminate]. inversion E; subst. constructor. now apply docs_exact.
    + intros E. inversion E; subst. match goal with K : Docs _ _ _ |- _ => apply docs_exact in K; [now rewrite K|auto] end.
Qed.

Lemma tree_exact : forall J n, exact J n.
Proof.
  intros J. induction n as [n IH] using node_ind2. intros v.
  assert (HL : forall l, (forall m, In m l -> child n m) -> Forall (exact J) l) by (intros l HL; apply Forall_forall; auto).
  assert (D : parts n = [] \/ parts n <> []) by (destruct (parts n); [left; auto|right; discriminate]). destruct D as [D|D].
  - destruct n; try discriminate D; (split; intros E; inversion E; subst; try (match goal with N : parts _ <> [] |- _ => now elim N end); try reflexivity; constructor).
  - rewrite tree_parts by auto. rewrite obj_exact.
    + split; [intros (ms & -> & HO); now constructor|]. intros E. inversion E; subst; try (now elim D). eauto.
    + intros f HF w. apply part_exact. destruct n; simpl in HF; repeat (destruct HF as [<-|HF]; [cbn [snd PTok]; first [exact I|apply IH; constructor|apply HL; intros; now constructor]|]); contradiction.
Qed.
