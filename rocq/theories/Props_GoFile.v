(** Property C78: which generated files the Go compiler accepts. *)
From Coq Require Import String Relations.
From Verif Require Import Base Token Strconv Ast Codegen GoSpec Props_Codegen Props_Text.
Open Scope string_scope.
Open Scope list_scope.
Open Scope Z_scope.

(** ** Specification, on CDDL *)

Section Spec.
Variables (X : GenExt) (I T : bytes -> Prop).

Definition named (ws : list bytes) : list bytes := filter (fun n => negb (beq n (str "_"))) ws.

(** Values that have a Go type: base types other than null, names of types, groups and arrays
    whose members have distinct names, occurrences and size constraints - no literals.
    [GoMembers l ws]: the members [l] are named [ws]; an occurrence is no member, since Go
    does not embed slices. *)
Inductive GoValue : node -> Prop :=
| gv_base n k : typeOf n = Some k -> In k [KBooleanType; KTstrType; KBytesType; KIntegerType; KUintType] -> GoValue n
| gv_name i w : GoName X (iName i) w -> T w -> GoValue (NIdentifier i)
| gv_group p l ws : GoMembers l ws -> NoDup (named ws) -> GoValue (NGroup p l)
| gv_array p l ws : GoMembers l ws -> NoDup (named ws) -> GoValue (NArray p l)
| gv_many p t a b i : GoValue i -> GoValue (NNMOccurrence p t a b i)
| gv_size p t q u v ty : In (typeOf ty) [Some KUintType; Some KBytesType; Some KTstrType] -> GoValue (NSizeOp p t (NIntegerLiteral q u v) ty)
with GoMembers : list node -> list bytes -> Prop :=
| gm_nil : GoMembers [] []
| gm_member p i v c w l ws : GoName X (iName i) w -> I w -> GoValue v -> GoMembers l ws -> GoMembers (NEntry p i v c :: l) (w :: ws)
| gm_optional q t p i v c w l ws : GoName X (iName i) w -> I w -> GoValue v -> GoMembers l ws ->
    GoMembers (NOptional q t (NEntry p i v c) :: l) (w :: ws)
| gm_name i w l ws : GoName X (iName i) w -> T w -> GoMembers l ws -> GoMembers (NIdentifier i :: l) (w :: ws).

(** The names a value holds, other than through an occurrence. *)
Inductive Holds : node -> bytes -> Prop :=
| h_name i w : GoName X (iName i) w -> Holds (NIdentifier i) w
| h_group p l m w : In m l -> Holds m w -> Holds (NGroup p l) w
| h_array p l m w : In m l -> Holds m w -> Holds (NArray p l) w
| h_member p i v c w : Holds v w -> Holds (NEntry p i v c) w
| h_optional q t v w : Holds v w -> Holds (NOptional q t v) w.
End Spec.

Definition ruleName (n : node) : bytes := match n with NRule _ i _ _ => iName i | _ => [] end.

(** The rules of a file, as Go name and value. *)
Definition Rule (X : GenExt) (l : list node) (w : bytes) (v : node) : Prop :=
  exists p i c, In (NRule p i v c) l /\ GoName X (iName i) w.
Definition RuleName (X : GenExt) (l : list node) (w : bytes) : Prop := exists v, Rule X l w v.

Definition refers (X : GenExt) (l : list node) (a b : bytes) : Prop := exists v, Rule X l a v /\ Holds X v b.

(** Names that stand for an interface of Go, in the end. *)
Inductive Abstract (X : GenExt) (l : list node) : bytes -> Prop :=
| ab_universe w : In w interfaces -> Abstract X l w
| ab_name w i m : Rule X l w (NIdentifier i) -> GoName X (iName i) m -> Abstract X l m -> Abstract X l w.

(** What the rules must satisfy. *)
Record Compilable (X : GenExt) (I : bytes -> Prop) (twice : bool) (pkg : bytes) (l : list node) : Prop := mkCompilable {
  co_package : I pkg /\ pkg <> str "_";
  co_distinct : exists ws, Forall2 (fun n w => GoName X (ruleName n) w) (filter isRule l) ws /\ NoDup ws /\ Forall I ws;
  co_receiver : forall p i v c, In (NRule p i v c) l -> I (gToLower X (iName i));
  co_values : forall p i v c, In (NRule p i v c) l -> GoValue X I (fun w => RuleName X l w \/ In w universeTypes) v;
  co_finite : forall w, ~ clos_trans bytes (refers X l) w w;
  co_concrete : forall w, RuleName X l w -> ~ Abstract X l w;
  co_valid : forall p i q g c v ws, In (NRule p i v c) l -> v = NGroup q g \/ v = NArray q g ->
    GoMembers X I (fun w => RuleName X l w \/ In w universeTypes) g ws -> ~ In (str "Valid") ws;
  co_checks : forall p i c q t q' t' n ty, In (NRule p i (NSizeOp q t (NIntegerLiteral q' t' n) ty) c) l ->
    gToLower X (iName i) = str "self" /\ 0 <= n < 2 ^ 64;
  co_imports : (0 < ruleSizes l)%nat -> gRebuilds X = true /\ (forall p i v c, In (NRule p i v c) l -> typeOf v <> Some KSizeOp) \/
    gRebuilds X = false /\ (exists p i v c, In (NRule p i v c) l /\ typeOf v = Some KSizeOp) /\ (twice = true \/ ruleSizes l = 1%nat)
}.

(** The excluded files: those that declare a reserved name, or call a receiver nil. *)
Definition Fresh (X : GenExt) (l : list node) : Prop :=
  forall p i v c, In (NRule p i v c) l -> gToLower X (iName i) <> str "nil" /\ forall w, GoName X (iName i) w -> ~ In w reserved.

(** ** Proofs *)

Scheme GoValue_ind2 := Induction for GoValue Sort Prop
  with GoMembers_ind2 := Induction for GoMembers Sort Prop.
Combined Scheme goValue_ind from GoValue_ind2, GoMembers_ind2.

Definition allOk (I T : bytes -> Prop) : list gfield -> Prop :=
  fix all (fs : list gfield) : Prop :=
    match fs with
    | [] => True
    | (ns, e, _) :: fs => Forall I ns /\ (ns = [] -> exists n, e = GIdent n) /\ typeOk I T e /\ all fs
    end.

Lemma typeOk_struct : forall I T fs, typeOk I T (GStruct fs) = (NoDup (fieldNames fs) /\ allOk I T fs).
Proof. reflexivity. Qed.

Definition insideAll : list gfield -> list bytes :=
  fix all (fs : list gfield) : list bytes := match fs with [] => [] | (_, e, _) :: fs => inside e ++ all fs end.

Lemma inside_struct : forall fs, inside (GStruct fs) = insideAll fs.
Proof. reflexivity. Qed.

Definition namesOf (f : gfield) : list bytes := match f with ([], GIdent n, _) => [n] | (ns, _, _) => ns end.
Lemma fieldNames_eq : forall fs, fieldNames fs = named (concat (map namesOf fs)).
Proof. reflexivity. Qed.

Section Values.
Variables (X : GenExt) (I T T' : bytes -> Prop).
Hypothesis HT : forall n, T n <-> T' n.
Hypothesis HU : forall n, In n universeTypes -> T n.
Hypothesis HN : forall n, In n universeRest -> ~ T n.
Hypothesis HB : I (str "_").

Lemma base_type : forall n k e, typeOf n = Some k -> baseType k = Some e -> (typeOk I T' e <-> GoValue X I T n).
Proof.
  intros n k e E1 E2. split.
  - intros H. destruct k; try discriminate E2; injection E2 as <-; try (eapply gv_base; [eassumption|simpl; tauto]).
    exfalso. apply (HN (str "nil")); [simpl; tauto|]. apply HT. exact H.
  - intros H. assert (K : In k [KBooleanType; KTstrType; KBytesType; KIntegerType; KUintType]).
    { inversion H; subst; try (simpl in E1; injection E1 as <-; discriminate E2). congruence. }
    simpl in K. destruct K as [<-|[<-|[<-|[<-|[<-|[]]]]]]; injection E2 as <-; cbn [typeOk]; apply HT, HU; simpl; tauto.
Qed.

Lemma names_in : forall i w, GoName X (iName i) w -> (T' w <-> GoValue X I T (NIdentifier i)).
Proof.
  intros i w H. split.
  - intros K. apply (gv_name X I T i w); auto. now apply HT.
  - intros K. inversion K as [? k E|? w' H' K'| | | |]; subst.
    + discriminate E || (simpl in E; injection E as <-; simpl in *; intuition discriminate).
    + rewrite (C36_names_unique _ _ _ _ H H'). now apply HT.
Qed.

Lemma members_names : forall l ws, GoMembers X I T l ws -> forall fs k, EntriesAre X l fs k -> ws = concat (map namesOf fs).
Proof.
  induction l as [|n l IH]; intros ws H fs k HE.
  - inversion H; subst. inversion HE; subst. reflexivity.
  - inversion HE as [|? ? f fs' k1 m EI ER]; subst. cbn [map concat].
    inversion H as [|p i v c w ? ws' G1 G2 G3 G4|q t p i v c w ? ws' G1 G2 G3 G4|i w ? ws' G1 G2 G4]; subst; inversion EI; subst;
      rewrite <- (IH _ G4 _ _ ER); cbn [namesOf app]; f_equal; eapply C36_names_unique; eauto.
Qed.

Lemma go_values_iff :
  (forall n e k, TypeIs X n e k -> (typeOk I T' e <-> GoValue X I T n)) /\
  (forall n f k, EntryIs X n f k -> forall l fs, (allOk I T' fs <-> GoMembers X I T l (concat (map namesOf fs))) ->
     (allOk I T' (f :: fs) <-> GoMembers X I T (n :: l) (concat (map namesOf (f :: fs))))) /\
  (forall l fs k, EntriesAre X l fs k -> (allOk I T' fs <-> GoMembers X I T l (concat (map namesOf fs)))).
Proof.
  assert (LIT : forall n k, typeOf n = Some k -> ~ In k [KBooleanType; KTstrType; KBytesType; KIntegerType; KUintType] ->
    (exists p t v, n = NIntegerLiteral p t v) \/ (exists r b, n = NBooleanLiteral r b) \/ (exists p t s, n = NTextLiteral p t s) \/ (exists r t b, n = NFloatLiteral r t b) ->
    ~ GoValue X I T n).
  { intros n k E N K H. inversion H; subst; try (destruct K as [(?&?&?&K)|[(?&?&K)|[(?&?&?&K)|(?&?&?&K)]]]; discriminate K). congruence. }
  assert (NI : forall k, k = KIntegerLiteral \/ k = KBooleanLiteral \/ k = KTextLiteral \/ k = KFloatLiteral -> ~ In k [KBooleanType; KTstrType; KBytesType; KIntegerType; KUintType]).
  { intros k [->|[->|[->| ->]]]; simpl; intuition discriminate. }
  apply gen_ind.
  - intros n k e E1 E2. eapply base_type; eauto.
  - intros p t v. split; [intros []|]. intros H. exfalso. apply (LIT _ KIntegerLiteral) in H; [auto|reflexivity|apply NI; auto|eauto 10].
  - intros r. split; [intros H; exfalso; apply HT in H; revert H; apply HN; simpl; tauto|]. intros H. exfalso. apply (LIT _ KBooleanLiteral) in H; [auto|reflexivity|apply NI; auto|eauto 10].
  - intros r. split; [intros H; exfalso; apply HT in H; revert H; apply HN; simpl; tauto|]. intros H. exfalso. apply (LIT _ KBooleanLiteral) in H; [auto|reflexivity|apply NI; auto|eauto 10].
  - intros p t s. split; [intros []|]. intros H. exfalso. apply (LIT _ KTextLiteral) in H; [auto|reflexivity|apply NI; auto|eauto 10].
  - intros r t b. split; [intros []|]. intros H. exfalso. apply (LIT _ KFloatLiteral) in H; [auto|reflexivity|apply NI; auto|eauto 10].
  - intros i w H. cbn [typeOk]. now apply names_in.
  - intros p l fs k HE IH. rewrite typeOk_struct, IH, fieldNames_eq. split.
    + intros [H1 H2]. eapply gv_group; eauto.
    + intros H. inversion H as [? k0 E K| |? ? ws H1 H2| | |]; subst.
      * simpl in E. injection E as <-. simpl in K. intuition discriminate.
      * pose proof (members_names _ _ H1 _ _ HE). subst ws. auto.
  - intros p l fs k HE IH. rewrite typeOk_struct, fieldNames_eq. cbn [allOk TOARRAY map concat namesOf]. rewrite IH.
    change (named ([str "_"] ++ concat (map namesOf fs))) with (named (concat (map namesOf fs))). split.
    + intros (H1 & _ & _ & _ & H2). eapply gv_array; eauto.
    + intros H. inversion H as [? k0 E K| | |? ? ws H1 H2| |]; subst.
      * simpl in E. injection E as <-. simpl in K. intuition discriminate.
      * pose proof (members_names _ _ H1 _ _ HE). subst ws. split; auto. split; [auto|]. split; [discriminate|]. split; auto.
        cbn [typeOk]. split; [constructor|exact Logic.I].
  - intros p t a b i e k H IH. cbn [typeOk]. rewrite IH. split; [now constructor|]. intros K. inversion K as [? k0 E K0| | | | |]; subst; auto.
    simpl in E. injection E as <-. simpl in K0. intuition discriminate.
  - intros p t q u v ty e HI H IH. split; [intros _; now constructor|]. intros _. apply IH.
    destruct HI as [HI|[HI|[HI|[]]]]; symmetry in HI; eapply gv_base; eauto; simpl; tauto.
  - intros p i v c w e k HW H IH l fs HF. cbn [allOk namesOf map concat app]. rewrite IH, HF. split.
    + intros (H1 & _ & H2 & H3). inversion H1; subst. eapply gm_member; eauto.
    + intros K. inversion K; subst. repeat split; auto. discriminate.
  - intros q t p i v c w e k HW H IH l fs HF. cbn [allOk namesOf map concat app]. rewrite IH, HF. split.
    + intros (H1 & _ & H2 & H3). inversion H1; subst. eapply gm_optional; eauto.
    + intros K. inversion K; subst. repeat split; auto. discriminate.
  - intros i w HW l fs HF. cbn [allOk namesOf map concat app typeOk]. rewrite HF. split.
    + intros (_ & _ & H2 & H3). eapply gm_name; eauto. now apply HT.
    + intros K. inversion K; subst. repeat split; eauto. now apply HT.
  - intros p t a b i e k H IH l fs HF. cbn [allOk]. split; [intros (_ & K & _); destruct K as [n K]; [auto|discriminate]|]. intros K. inversion K.
  - cbn. split; auto. intros _. constructor.
  - intros n l f fs k m HE IHE HL IHL. now apply IHE.
Qed.
End Values.

(** ** What a type contains *)

Lemma inside_iff : forall X,
  (forall n e k, TypeIs X n e k -> forall b, ~ In b universeTypes -> ~ In b universeRest -> (In b (inside e) <-> Holds X n b)) /\
  (forall n f k, EntryIs X n f k -> forall b, ~ In b universeTypes -> ~ In b universeRest -> (In b (inside (snd (fst f))) <-> Holds X n b)) /\
  (forall l fs k, EntriesAre X l fs k -> forall b, ~ In b universeTypes -> ~ In b universeRest -> (In b (insideAll fs) <-> exists m, In m l /\ Holds X m b)).
Proof.
  intros X. apply gen_ind.
  - intros n k e E1 E2 b N1 N2. split.
    + intros H. exfalso. destruct k; try discriminate E2; injection E2 as <-; simpl in H; try tauto; destruct H as [<-|[]]; (apply N1; simpl; tauto) || (apply N2; simpl; tauto).
    + intros H. inversion H; subst; simpl in E1; injection E1 as <-; discriminate E2.
  - intros p t v b N1 N2. split; [intros []|]. intros H. inversion H.
  - intros r b N1 N2. split; [intros [<-|[]]; exfalso; apply N2; simpl; tauto|]. intros H. inversion H.
  - intros r b N1 N2. split; [intros [<-|[]]; exfalso; apply N2; simpl; tauto|]. intros H. inversion H.
  - intros p t v b N1 N2. split; [intros []|]. intros H. inversion H.
  - intros p t v b N1 N2. split; [intros []|]. intros H. inversion H.
  - intros i w HW b N1 N2. split; [intros [<-|[]]; now constructor|]. intros H. inversion H; subst. left. eapply C36_names_unique; eauto.
  - intros p l fs k HE IH b N1 N2. rewrite inside_struct, (IH b N1 N2). split; [intros (m & H1 & H2); econstructor; eauto|]. intros H. inversion H; subst. eauto.
  - intros p l fs k HE IH b N1 N2. rewrite inside_struct. cbn [insideAll TOARRAY inside app]. rewrite (IH b N1 N2).
    split; [intros (m & H1 & H2); econstructor; eauto|]. intros H. inversion H; subst. eauto.
  - intros p t a b0 i e k H IH b N1 N2. split; [intros []|]. intros K. inversion K.
  - intros p t q u v ty e HI H IH b N1 N2. rewrite IH by auto. split; intros K; inversion K; subst; simpl in HI; intuition discriminate.
  - intros p i v c w e k HW H IH b N1 N2. cbn [fst snd]. rewrite IH by auto. split; [now constructor|]. intros K. now inversion K.
  - intros q t p i v c w e k HW H IH b N1 N2. cbn [fst snd]. rewrite IH by auto. split; [intros K; now do 2 constructor|]. intros K. inversion K; subst. now inversion H4.
  - intros i w HW b N1 N2. cbn [fst snd inside]. split; [intros [<-|[]]; now constructor|]. intros H. inversion H; subst. left. eapply C36_names_unique; eauto.
  - intros p t a b0 i e k H IH b N1 N2. split; [intros []|]. intros K. inversion K.
  - intros b N1 N2. split; [intros []|]. intros (m & [] & _).
  - intros n l f fs k m HE IHE HL IHL b N1 N2. destruct f as [[ns e] t]. cbn [insideAll fst snd] in *. rewrite in_app_iff, IHE, IHL by auto. split.
    + intros [K|(x & H1 & H2)]; [exists n; split; [now left|auto]|exists x; split; [now right|auto]].
    + intros (x & [<-|H1] & H2); [now left|right; eauto].
Qed.

(** ** Files *)

Lemma decl_in : forall X l ds k d, FileIs X l ds k -> In d ds -> exists p i v c w e k',
  In (NRule p i v c) l /\ GoName X (iName i) w /\ TypeIs X v e k' /\
  ((literal v /\ d = GVar (declDoc (iName i)) w e) \/ (~ literal v /\ d = GType (declDoc (iName i)) w e) \/
   d = GMethod (validDoc (iName i)) (gToLower X (iName i)) w (checksOf v)).
Proof.
  intros X l ds k d H HI. induction H as [|p i v c l ds ds' k m HR HL IH|n l ds k N1 N2 N3 N4 HL IH]; [destruct HI| |].
  - apply in_app_or in HI as [HI|HI].
    + inversion HR as [? ? w e ? HW HT HLit|? ? w e ? HW HT HLit]; subst; exists p, i, v, c, w, e, k; (split; [now left|]); (split; [auto|]); (split; [auto|]);
        destruct HI as [<-|[<-|[]]]; auto.
    + destruct (IH HI) as (p' & i' & v' & c' & w' & e' & k' & A & B). exists p', i', v', c', w', e', k'. split; [now right|auto].
  - destruct (IH HI) as (p' & i' & v' & c' & w' & e' & k' & A & B). exists p', i', v', c', w', e', k'. split; [now right|auto].
Qed.

Lemma in_decl : forall X l ds k p i v c, FileIs X l ds k -> In (NRule p i v c) l -> exists w e k',
  GoName X (iName i) w /\ TypeIs X v e k' /\
  ((literal v /\ In (GVar (declDoc (iName i)) w e) ds) \/ (~ literal v /\ In (GType (declDoc (iName i)) w e) ds)) /\
  In (GMethod (validDoc (iName i)) (gToLower X (iName i)) w (checksOf v)) ds.
Proof.
  intros X l ds k p i v c H HI. induction H as [|q j u b l ds ds' k m HR HL IH|n l ds k N1 N2 N3 N4 HL IH]; [destruct HI| |].
  - destruct HI as [HI|HI].
    + injection HI as -> -> -> ->. inversion HR as [? ? w e ? HW HT HLit|? ? w e ? HW HT HLit]; subst; exists w, e, k; (split; [auto|]); (split; [auto|]); (split; [|simpl; auto]); [left|right]; split; auto; simpl; auto.
    + destruct (IH HI) as (w & e & k' & A & B & C & D). exists w, e, k'. rewrite !in_app_iff. intuition.
  - destruct HI as [HI|HI]; [exfalso; eapply N1; eauto|]. auto.
Qed.

Lemma declared_names : forall X l ds k, FileIs X l ds k -> Forall2 (fun n w => GoName X (ruleName n) w) (filter isRule l) (concat (map declared ds)).
Proof.
  intros X l ds k H. induction H as [|p i v c l ds ds' k m HR HL IH|n l ds k N1 N2 N3 N4 HL IH]; [constructor| |].
  - rewrite map_app, concat_app. cbn [filter isRule]. inversion HR; subst; cbn [map declared concat app]; constructor; auto.
  - cbn [filter]. destruct n; cbn [isRule]; auto. exfalso. eapply N1; eauto.
Qed.

Lemma names_unique2 : forall X (l : list node) ws ws', Forall2 (fun n w => GoName X (ruleName n) w) l ws -> Forall2 (fun n w => GoName X (ruleName n) w) l ws' -> ws = ws'.
Proof.
  intros X l ws ws' H. revert ws'. induction H as [|n w l ws HW H IH]; intros ws' K; inversion K; subst; auto. f_equal; auto. eapply C36_names_unique; eauto.
Qed.

Lemma no_import : forall X l ds k q, FileIs X l ds k -> ~ In (GImport q) ds.
Proof.
  intros X l ds k q H HI. destruct (decl_in _ _ _ _ _ H HI) as (p & i & v & c & w & e & k' & _ & _ & _ & [[_ K]|[[_ K]|K]]); discriminate K.
Qed.

Lemma clash : forall ds d1 d2 n e1 e2, NoDup (concat (map declared ds)) -> In (GVar d1 n e1) ds -> In (GType d2 n e2) ds -> False.
Proof.
  induction ds as [|d ds IH]; intros d1 d2 n e1 e2 N H1 H2; [destruct H1|]. cbn [map concat] in N.
  assert (K : forall x, In x ds -> forall m, In m (declared x) -> In m (concat (map declared ds))).
  { intros x HX m HM. apply in_concat. exists (declared x). split; auto. now apply in_map. }
  destruct H1 as [H1|H1], H2 as [H2|H2].
  - congruence.
  - subst d. cbn in N. inversion N as [|? ? N1 N2]; subst. apply N1. apply (K _ H2). now left.
  - subst d. cbn in N. inversion N as [|? ? N1 N2]; subst. apply N1. apply (K _ H1). now left.
  - eapply IH; eauto. destruct d; cbn in N; auto; now inversion N.
Qed.

Section File.
Variables (X : GenExt) (I : bytes -> Prop) (twice : bool) (pkg : bytes) (l : list node) (ds : list gdecl).
Hypothesis HFl : FileIs X l ds (ruleSizes l).
Hypothesis HFr : Fresh X l.
Hypothesis HB : I (str "_").

Definition full : list gdecl :=
  if gRebuilds X then ds else match ruleSizes l with 0%nat => ds | S k => GImport (repeat VALIDATOR_PKG (S k)) :: ds end.

Lemma in_full : forall d, (forall q, d <> GImport q) -> (In d full <-> In d ds).
Proof.
  clear. intros d N. unfold full. destruct (gRebuilds X); [tauto|]. destruct (ruleSizes l); [tauto|]. split; [|now right]. intros [K|K]; auto. exfalso. eapply N; eauto.
Qed.

Lemma in_imports : forall q, In (GImport q) full <-> gRebuilds X = false /\ (0 < ruleSizes l)%nat /\ q = repeat VALIDATOR_PKG (ruleSizes l).
Proof.
  intros q. pose proof (no_import _ _ _ _ q HFl) as N. unfold full. destruct (gRebuilds X); [split; [tauto|intros [K _]; discriminate]|].
  destruct (ruleSizes l) as [|k] eqn:E; [split; [tauto|intros (_ & K & _); lia]|]. split.
  - intros [K|K]; [|tauto]. injection K as <-. repeat split; auto. lia.
  - intros (_ & _ & ->). now left.
Qed.

Lemma full_names : concat (map declared full) = concat (map declared ds).
Proof. clear. unfold full. destruct (gRebuilds X); auto. destruct (ruleSizes l); auto. Qed.

Lemma rule_type : forall w e doc, In (GType doc w e) full -> exists v k, Rule X l w v /\ TypeIs X v e k /\ ~ literal v.
Proof.
  intros w e doc H. apply in_full in H; [|discriminate]. destruct (decl_in _ _ _ _ _ HFl H) as (p & i & v & c & w' & e' & k & A & B & C & D).
  destruct D as [[_ D]|[[NL D]|D]]; try discriminate D. injection D as -> -> ->. exists v, k. split; [exists p, i, c; auto|auto].
Qed.

Lemma type_rule : forall w v, Rule X l w v -> ~ literal v -> exists doc e k, In (GType doc w e) full /\ TypeIs X v e k.
Proof.
  intros w v (p & i & c & HI & HW) NL. destruct (in_decl _ _ _ _ _ _ _ _ HFl HI) as (w' & e & k & A & B & [[C _]|[_ C]] & _); [contradiction|].
  rewrite (C36_names_unique _ _ _ _ HW A). exists (declDoc (iName i)), e, k. split; auto. apply in_full; auto. discriminate.
Qed.

Lemma fresh_rule : forall w, RuleName X l w -> ~ In w reserved.
Proof. intros w (v & p & i & c & HI & HW). now apply (HFr _ _ _ _ HI). Qed.

(** From here on no rule is a literal. *)
Hypothesis HNL : forall w v, Rule X l w v -> ~ literal v.

Lemma types_are_rules : forall n, isTypeIn full n <-> RuleName X l n.
Proof.
  intros n. split.
  - intros (doc & e & H). destruct (rule_type _ _ _ H) as (v & k & R & _). now exists v.
  - intros (v & R). destruct (type_rule _ _ R (HNL _ _ R)) as (doc & e & k & H & _). now exists doc, e.
Qed.

Lemma typeNames : forall n, (RuleName X l n \/ In n universeTypes) <-> typeName full n.
Proof. intros n. unfold typeName. now rewrite types_are_rules. Qed.

Lemma rest_no_type : forall n, In n universeRest -> ~ (RuleName X l n \/ In n universeTypes).
Proof.
  intros n HI [K|K].
  - apply (fresh_rule _ K). unfold reserved. rewrite !in_app_iff. auto.
  - clear - HI K. unfold universeRest, universeTypes in *. simpl in *. repeat (destruct HI as [<-|HI]; [repeat (destruct K as [K|K]; [discriminate K|]); exact K|]). exact HI.
Qed.

Lemma value_iff : forall v e k, TypeIs X v e k -> (typeOk I (typeName full) e <-> GoValue X I (fun w => RuleName X l w \/ In w universeTypes) v).
Proof. intros v e k H. eapply (proj1 (go_values_iff X I _ _ typeNames (fun n K => or_intror K) rest_no_type HB)); eauto. Qed.

Lemma cycle_iff : forall n, clos_trans bytes (contains full) n n <-> clos_trans bytes (refers X l) n n.
Proof.
  assert (FR : forall a b, contains full a b -> RuleName X l a).
  { intros a b (doc & e & H & _). apply types_are_rules. now exists doc, e. }
  assert (NU : forall b, RuleName X l b -> ~ In b universeTypes /\ ~ In b universeRest).
  { intros b R. apply fresh_rule in R. unfold reserved in R. rewrite !in_app_iff in R. tauto. }
  assert (E1 : forall a b, contains full a b -> RuleName X l b -> refers X l a b).
  { intros a b (doc & e & H & HI) R. destruct (rule_type _ _ _ H) as (v & k & RV & HT & _). exists v. split; auto.
    destruct (NU _ R). now apply (proj1 (inside_iff X) _ _ _ HT b). }
  assert (E2 : forall a b, refers X l a b -> RuleName X l b -> contains full a b).
  { intros a b (v & RV & HH) R. destruct (type_rule _ _ RV (HNL _ _ RV)) as (doc & e & k & H & HT). exists doc, e. split; auto.
    destruct (NU _ R). now apply (proj1 (inside_iff X) _ _ _ HT b). }
  assert (FR2 : forall a b, refers X l a b -> RuleName X l a) by (intros a b (v & RV & _); now exists v).
  assert (G : forall (R S : bytes -> bytes -> Prop), (forall a b, R a b -> RuleName X l a) -> (forall a b, R a b -> RuleName X l b -> S a b) ->
    forall a b, clos_trans_1n bytes R a b -> RuleName X l b -> clos_trans bytes S a b).
  { intros R S F E a b H. induction H as [a b H|a b c H HR IH]; intros HB'; [apply t_step; auto|].
    eapply t_trans; [apply t_step, E; [exact H|]|auto]. destruct HR; eapply F; eauto. }
  assert (SRC : forall (R : bytes -> bytes -> Prop), (forall a b, R a b -> RuleName X l a) -> forall a b, clos_trans_1n bytes R a b -> RuleName X l a).
  { intros R F a b H. destruct H; eapply F; eauto. }
  intros n. split; intros H; apply clos_trans_t1n in H.
  - eapply (G (contains full)); eauto.
  - eapply (G (refers X l)); eauto.
Qed.

Lemma abstract_iff : forall n, Interface full n <-> Abstract X l n.
Proof.
  intros n. split.
  - induction 1 as [n H|doc n m H HI IH]; [now constructor|]. destruct (rule_type _ _ _ H) as (v & k & R & HT & NL).
    inversion HT; subst; try (exfalso; apply NL; unfold literal; eauto 10; fail).
    + exfalso. assert (NA : forall w, In w (map str ["bool"; "string"; "nil"; "int"; "uint"]) -> ~ Interface full w).
      { intros w HW HJ. destruct HJ as [w HJ|doc' w m' HJ HK].
        - unfold interfaces in HJ. simpl in HJ, HW. repeat (destruct HW as [<-|HW]; [destruct HJ as [HJ|[HJ|[]]]; discriminate HJ|]). exact HW.
        - assert (RW : RuleName X l w) by (apply types_are_rules; now exists doc', (GIdent m')). apply (fresh_rule _ RW). unfold reserved. rewrite !in_app_iff.
          unfold universeTypes, universeRest. simpl in HW |- *. intuition. }
      destruct k0; try discriminate; injection H1 as <-; (eapply NA; [|exact HI]); simpl; tauto.
    + eapply ab_name; eauto.
    + exfalso. match goal with K : In (typeOf _) _ |- _ => rename K into HK end. match goal with K : TypeIs X ty _ _ |- _ => rename K into HTy end.
      assert (NA : forall w, In w (map str ["string"; "uint"]) -> ~ Interface full w).
      { intros w HW HJ. destruct HJ as [w HJ|doc' w m' HJ HK'].
        - unfold interfaces in HJ. simpl in HJ, HW. repeat (destruct HW as [<-|HW]; [destruct HJ as [HJ|[HJ|[]]]; discriminate HJ|]). exact HW.
        - assert (RW : RuleName X l w) by (apply types_are_rules; now exists doc', (GIdent m')). apply (fresh_rule _ RW). unfold reserved. rewrite !in_app_iff.
          unfold universeTypes, universeRest. simpl in HW |- *. intuition. }
      inversion HTy; subst; simpl in HK; try (intuition discriminate).
      destruct HK as [HK|[HK|[HK|[]]]]; rewrite H0 in HK; injection HK as <-; simpl in H1; try discriminate H1; injection H1 as <-; (eapply NA; [|exact HI]); simpl; tauto.
  - induction 1 as [n H|n i m R HW HA IH]; [now constructor|]. destruct (type_rule _ _ R (HNL _ _ R)) as (doc & e & k & H & HT).
    inversion HT as [n0 k0 e0 E1 E2| | | | | |j w HW'| | | |]; subst; [exfalso; simpl in E1; injection E1 as <-; discriminate E2|].
    rewrite (C36_names_unique _ _ _ _ HW' HW) in H. eapply if_name; eauto.
Qed.
End File.

Lemma value_not_literal : forall X I T v, GoValue X I T v -> ~ literal v.
Proof.
  intros X I T v H L. unfold literal in L. destruct L as [(?&?&?&->)|[(?&?&?&->)|[(?&?&?&->)|(?&?&->)]]];
    inversion H as [? k E K| | | | |]; subst; simpl in E; injection E as <-; simpl in K; intuition discriminate.
Qed.

Lemma sizes_pos : forall l p i v c, In (NRule p i v c) l -> typeOf v = Some KSizeOp -> (forall k, v <> NTypedNil k) -> (0 < ruleSizes l)%nat.
Proof.
  intros l p i v c HI HT HN. unfold ruleSizes. induction l as [|n l IH]; [destruct HI|]. destruct HI as [->|HI].
  - destruct v; try discriminate HT; [exfalso; eapply HN; eauto|]. simpl. lia.
  - specialize (IH HI). cbn [filter]. destruct (isRule n); auto. simpl in *. lia.
Qed.

Lemma size_shape : forall X v e k, TypeIs X v e k -> typeOf v = Some KSizeOp -> exists p t q u n ty, v = NSizeOp p t (NIntegerLiteral q u n) ty.
Proof.
  intros X v e k H E. destruct H; try discriminate E; eauto 10. exfalso. rewrite H in E. injection E as ->. discriminate H0.
Qed.

Lemma checks_shape : forall v c, In c (checksOf v) -> exists p t q u n ty, v = NSizeOp p t (NIntegerLiteral q u n) ty /\ c = mkCall (str "validators") (str "CheckSize") [str "self"; fmtD n].
Proof. intros v c H. destruct v; try contradiction. simpl in H. destruct v1; try contradiction. destruct H as [<-|[]]. repeat eexists. Qed.

Lemma struct_shape : forall X v fs k, TypeIs X v (GStruct fs) k -> exists p l fs', (v = NGroup p l \/ v = NArray p l) /\ EntriesAre X l fs' k /\
  fieldNames fs = named (concat (map namesOf fs')).
Proof.
  intros X v fs k H. inversion H; subst.
  - destruct k0; discriminate.
  - exists p, l, fs. auto.
  - exists p, l, fs0. auto.
  - exfalso. match goal with K : TypeIs X ty _ _ |- _ => inversion K; subst end; match goal with K : In (typeOf _) _ |- _ => simpl in K end; try (intuition discriminate).
    destruct k; discriminate.
Qed.

Lemma underlying_rule : forall X l ds n e, FileIs X l ds (ruleSizes l) -> Underlying (full X l ds) n e -> exists m v k, Rule X l m v /\ TypeIs X v e k.
Proof.
  intros X l ds n e HF H. induction H as [doc n e H N|doc n m e H HU IH]; auto. destruct (rule_type X l ds HF _ _ _ H) as (v & k & R & HT & _). exists n, v, k. auto.
Qed.

Lemma valid_named : forall ws, In (str "Valid") ws <-> In (str "Valid") (named ws).
Proof. intros ws. unfold named. rewrite filter_In. split; [intros H; split; auto|tauto]. Qed.

Lemma into_full : forall X l ds d, (forall q, d <> GImport q) -> In d ds -> In d (full X l ds).
Proof. intros X l ds d N H. apply (in_full X l ds d N). exact H. Qed.

(** ** C78 *)

Theorem C78_iff : forall X twice pkg p l g, flat l -> Fresh X l -> gIsIdent X (str "_") = true ->
  visit X (NCDDL p l) (newGenerator pkg) = Ok g ->
  (GoOk (fun w => gIsIdent X w = true) twice (gPkg (genString X g)) (gDecls (genString X g)) <->
   Compilable X (fun w => gIsIdent X w = true) twice pkg l).
Proof.
  intros X twice pkg p l g HFlat HFr HB HV. pose proof HV as HV0.
  destruct (C39_imports X pkg p l g HFlat HV) as (ds & HFl & ED). fold (full X l ds) in ED.
  apply (C36_file X p l _ _ HFlat) in HV0 as (ds0 & k0 & _ & ->). cbn [genString add newGenerator gPkg]. rewrite ED. clear ED ds0 k0 HV.
  set (I := fun w => gIsIdent X w = true). change (I (str "_")) in HB. split.
  - intros [O1 O2 O3 O4 O5 O6 O7 O8 O9 O10 O11].
    assert (HNL : forall w v, Rule X l w v -> ~ literal v).
    { intros w v (q & i & c & HI & HW) HL. destruct (in_decl _ _ _ _ _ _ _ _ HFl HI) as (w' & e & k & A & B & [[_ C]|[C _]] & D); [|contradiction].
      destruct (O7 (validDoc (iName i)) (gToLower X (iName i)) w' (checksOf v)) as (_ & (doc & e' & K) & _); [apply into_full; [discriminate|auto]|].
      eapply (clash (full X l ds)); eauto. apply into_full; [discriminate|eauto]. }
    assert (METH : forall q i v c, In (NRule q i v c) l -> exists w, GoName X (iName i) w /\ In (GMethod (validDoc (iName i)) (gToLower X (iName i)) w (checksOf v)) (full X l ds)).
    { intros q i v c HI. destruct (in_decl _ _ _ _ _ _ _ _ HFl HI) as (w & e & k & A & _ & _ & D). exists w. split; auto. apply into_full; [discriminate|auto]. }
    assert (VAL : forall q i v c, In (NRule q i v c) l -> GoValue X I (fun w => RuleName X l w \/ In w universeTypes) v).
    { intros q i v c HI. destruct (METH _ _ _ _ HI) as (w & HW & _). assert (R : Rule X l w v) by (exists q, i, c; auto).
      destruct (type_rule X l ds HFl _ _ R (HNL _ _ R)) as (doc & e & k & H & HT). apply (value_iff X I l ds HFl HFr HB HNL v e k HT). eapply O5; eauto. }
    constructor.
    + exact O1.
    + exists (concat (map declared ds)). rewrite full_names in O2, O3. split; [eapply declared_names; eauto|auto].
    + intros q i v c HI. destruct (METH _ _ _ _ HI) as (w & HW & D). now apply O7 in D.
    + exact VAL.
    + intros w HC. apply (O6 w). now apply (cycle_iff X l ds HFl HFr HNL).
    + intros w (v & q & i & c & HI & HW) HA. destruct (METH _ _ _ _ HI) as (w' & HW' & D). rewrite (C36_names_unique _ _ _ _ HW HW') in HA.
      apply O7 in D as (_ & _ & D). apply D. now apply (abstract_iff X l ds HFl HFr HNL).
    + intros q i q' gl c v ws HI HG HM HV. destruct (METH _ _ _ _ HI) as (w & HW & D). assert (R : Rule X l w v) by (exists q, i, c; auto).
      destruct (type_rule X l ds HFl _ _ R (HNL _ _ R)) as (doc & e & k & H & HT).
      assert (HS : exists fs fs', e = GStruct fs /\ EntriesAre X gl fs' k /\ fieldNames fs = named (concat (map namesOf fs'))).
      { destruct HG; subst v; inversion HT; subst; try (match goal with A : typeOf _ = Some _, B : baseType _ = Some _ |- _ => simpl in A; injection A as <-; discriminate B end); eauto. }
      destruct HS as (fs & fs' & -> & HE & EN). apply (O8 _ _ _ _ fs D); [eapply ul_literal; eauto; discriminate|]. rewrite EN.
      rewrite <- (members_names X I (fun w => RuleName X l w \/ In w universeTypes) _ _ HM _ _ HE). exact (proj1 (valid_named _) HV).
    + intros q i c q1 t q' t' n ty HI. destruct (METH _ _ _ _ HI) as (w & HW & D).
      destruct (O9 _ _ _ _ (mkCall (str "validators") (str "CheckSize") [str "self"; fmtD n]) D (or_introl eq_refl)) as (_ & _ & _ & a & v & EA & HA & HR).
      cbn [Codegen.cArgs] in EA. injection EA as <- EN. apply Props_Text.fmt_inj in EN. subst v. split; auto.
      destruct HA as [HA|(doc & e & HA)]; auto. exfalso. apply in_full in HA; [|discriminate].
      destruct (decl_in _ _ _ _ _ HFl HA) as (q2 & i2 & v2 & c2 & w2 & e2 & k2 & A & B & C & [[K _]|[[_ K]|K]]); try discriminate K.
      apply (HNL w2 v2); auto. exists q2, i2, c2. auto.
    + intros HP. destruct (gRebuilds X) eqn:ER.
      * left. split; auto. intros q i v c HI HS. destruct (in_decl _ _ _ _ _ _ _ _ HFl HI) as (w & e & k & A & B & _ & D).
        destruct (size_shape _ _ _ _ B HS) as (p1 & t1 & q1 & u1 & n1 & ty1 & ->).
        apply (into_full X l ds) in D; [|discriminate]. destruct (O9 _ _ _ _ _ D (or_introl eq_refl)) as (_ & (q3 & K & _) & _).
        apply (in_imports X l ds HFl) in K as (K & _). congruence.
      * right. split; auto. assert (HI : In (GImport (repeat VALIDATOR_PKG (ruleSizes l))) (full X l ds)) by (apply (in_imports X l ds HFl); auto).
        split.
        -- destruct (O10 _ VALIDATOR_PKG HI) as (_ & doc & r & t & cs & c & HM & HC & _).
           { destruct (ruleSizes l); [lia|]. now left. }
           apply in_full in HM; [|discriminate]. destruct (decl_in _ _ _ _ _ HFl HM) as (q2 & i2 & v2 & c2 & w2 & e2 & k2 & A & B & C & [[_ K]|[[_ K]|K]]); try discriminate K.
           injection K as -> -> -> ->. destruct (checks_shape _ _ HC) as (p1 & t1 & q1 & u1 & n1 & ty1 & -> & _). exists q2, i2. do 2 eexists. split; eauto.
        -- apply O11 in HI. rewrite repeat_length in HI. destruct HI; [auto|right; lia].
  - intros [C1 C2 C3 C4 C5 C6 C7 C8 C9].
    assert (HNL : forall w v, Rule X l w v -> ~ literal v).
    { intros w v (q & i & c & HI & HW). eapply value_not_literal. eapply C4; eauto. }
    destruct C2 as (ws & F2 & ND & FI). rewrite (names_unique2 _ _ _ _ F2 (declared_names _ _ _ _ HFl)) in ND, FI.
    constructor.
    + exact C1.
    + now rewrite full_names.
    + now rewrite full_names.
    + intros doc n e H. apply in_full in H; [|discriminate]. destruct (decl_in _ _ _ _ _ HFl H) as (q2 & i2 & v2 & c2 & w2 & e2 & k2 & A & B & C & [[K _]|[[_ K]|K]]); try discriminate K.
      exfalso. apply (HNL w2 v2); auto. exists q2, i2, c2. auto.
    + intros doc n e H. destruct (rule_type X l ds HFl _ _ _ H) as (v & k & (q & i & c & HI & HW) & HT & _). apply (value_iff X I l ds HFl HFr HB HNL v e k HT). eapply C4; eauto.
    + intros n H. apply (C5 n). now apply (cycle_iff X l ds HFl HFr HNL).
    + intros doc r t cs H. apply in_full in H; [|discriminate]. destruct (decl_in _ _ _ _ _ HFl H) as (q2 & i2 & v2 & c2 & w2 & e2 & k2 & A & B & C & [[_ K]|[[_ K]|K]]); try discriminate K.
      injection K as -> -> -> ->. assert (R : RuleName X l w2) by (exists v2, q2, i2, c2; auto). split; [eapply C3; eauto|]. split; [now apply (types_are_rules X l ds HFl HNL)|].
      intros K. apply (C6 _ R). now apply (abstract_iff X l ds HFl HFr HNL).
    + intros doc r t cs fs H HU. destruct (underlying_rule _ _ _ _ _ HFl HU) as (m & v & k & (q & i & c & HI & HW) & HT).
      destruct (struct_shape _ _ _ _ HT) as (q' & gl & fs' & HG & HE & EN). rewrite EN, <- valid_named. pose proof (C4 _ _ _ _ HI) as HGV.
      assert (HM : exists ws', GoMembers X I (fun w => RuleName X l w \/ In w universeTypes) gl ws').
      { destruct HG; subst v; inversion HGV as [? k1 E1 E2| |? ? ws' HM|? ? ws' HM| |]; subst; eauto; simpl in E1; injection E1 as <-; simpl in E2; intuition discriminate. }
      destruct HM as (ws' & HM). rewrite <- (members_names X I _ _ _ HM _ _ HE). eapply C7; eauto.
    + intros doc r t cs c H HC. apply in_full in H; [|discriminate]. destruct (decl_in _ _ _ _ _ HFl H) as (q2 & i2 & v2 & c2 & w2 & e2 & k2 & A & B & C & [[_ K]|[[_ K]|K]]); try discriminate K.
      injection K as -> -> -> ->. destruct (checks_shape _ _ HC) as (p1 & t1 & q1 & u1 & n1 & ty1 & -> & ->). destruct (C8 _ _ _ _ _ _ _ _ _ A) as [E1 E2].
      assert (HP : (0 < ruleSizes l)%nat) by (eapply sizes_pos; [eassumption|reflexivity|discriminate]).
      destruct (C9 HP) as [[_ K]|(ER & _ & _)]; [exfalso; eapply K; eauto; reflexivity|]. unfold callOk. cbn [cX cSel Codegen.cArgs]. split; auto. split.
      * exists (repeat VALIDATOR_PKG (ruleSizes l)). split; [apply (in_imports X l ds HFl); auto|]. destruct (ruleSizes l); [lia|]. now left.
      * split; auto. exists (str "self"), n1. split; auto.
    + intros q1 q H HI. apply (in_imports X l ds HFl) in H as (ER & HP & ->). apply repeat_spec in HI. subst q. split; auto.
      destruct (C9 HP) as [[K _]|(_ & (q2 & i2 & v2 & c2 & A & HS) & _)]; [congruence|]. destruct (in_decl _ _ _ _ _ _ _ _ HFl A) as (w & e & k & HW & B & _ & D).
      destruct (size_shape _ _ _ _ B HS) as (p1 & t1 & q1 & u1 & n1 & ty1 & ->). do 5 eexists. split; [apply into_full; [discriminate|exact D]|]. split; [left; reflexivity|reflexivity].
    + intros q H. apply (in_imports X l ds HFl) in H as (ER & HP & ->). rewrite repeat_length. destruct (C9 HP) as [[K _]|(_ & _ & [K|K])]; [congruence|auto|right; lia].
Qed.

(** Consequences. Go has no [$], [-], [.] or [@] in identifiers, and [strings.ToLower] keeps
    them: the receiver of such a rule's method is no identifier. *)
Theorem C78_odd_names : forall X twice pkg p l g q i v c b, flat l -> visit X (NCDDL p l) (newGenerator pkg) = Ok g ->
  In b (str "$-.@") -> (forall w, In b w -> In b (gToLower X w)) -> (forall w, gIsIdent X w = true -> ~ In b w) ->
  In (NRule q i v c) l -> In b (iName i) ->
  ~ GoOk (fun w => gIsIdent X w = true) twice (gPkg (genString X g)) (gDecls (genString X g)).
Proof.
  intros X twice pkg p l g q i v c b HFlat HV _ HL HI HR HN HO.
  destruct (C39_imports X pkg p l g HFlat HV) as (ds & HFl & ED). fold (full X l ds) in ED. rewrite ED in HO.
  destruct (in_decl _ _ _ _ _ _ _ _ HFl HR) as (w & e & k & _ & _ & _ & D). apply (into_full X l ds) in D; [|discriminate].
  destruct (go_receiver _ _ _ _ HO _ _ _ _ D) as (K & _). apply HI in K. apply K, HL, HN.
Qed.

(** A rule that is a literal declares a variable, which can have no method. *)
Theorem C78_literal : forall X twice pkg p l g q i v c, flat l -> visit X (NCDDL p l) (newGenerator pkg) = Ok g ->
  In (NRule q i v c) l -> literal v -> ~ GoOk (fun w => gIsIdent X w = true) twice (gPkg (genString X g)) (gDecls (genString X g)).
Proof.
  intros X twice pkg p l g q i v c HFlat HV HR HL HO.
  destruct (C39_imports X pkg p l g HFlat HV) as (ds & HFl & ED). fold (full X l ds) in ED. rewrite ED in HO.
  destruct (in_decl _ _ _ _ _ _ _ _ HFl HR) as (w & e & k & _ & _ & [[_ C]|[C _]] & D); [|contradiction].
  apply (into_full X l ds) in D; [|discriminate]. apply (into_full X l ds) in C; [|discriminate].
  destruct (go_receiver _ _ _ _ HO _ _ _ _ D) as (_ & (doc & e' & K) & _). eapply clash; eauto. apply (go_distinct _ _ _ _ HO).
Qed.

(** A size constraint on a rule not called self refers to a variable that is not there. *)
Theorem C78_size : forall X twice pkg p l g q i c r t r' t' n ty, flat l -> visit X (NCDDL p l) (newGenerator pkg) = Ok g ->
  In (NRule q i (NSizeOp r t (NIntegerLiteral r' t' n) ty) c) l -> gToLower X (iName i) <> str "self" ->
  ~ GoOk (fun w => gIsIdent X w = true) twice (gPkg (genString X g)) (gDecls (genString X g)).
Proof.
  intros X twice pkg p l g q i c r t r' t' n ty HFlat HV HR HN HO.
  assert (NL : forall q i v c, In (NRule q i v c) l -> ~ literal v) by (intros q0 i0 v0 c0 H0 L0; eapply C78_literal; eauto).
  destruct (C39_imports X pkg p l g HFlat HV) as (ds & HFl & ED). fold (full X l ds) in ED. rewrite ED in HO.
  destruct (in_decl _ _ _ _ _ _ _ _ HFl HR) as (w & e & k & _ & _ & _ & D). apply (into_full X l ds) in D; [|discriminate].
  destruct (go_calls _ _ _ _ HO _ _ _ _ _ D (or_introl eq_refl)) as (_ & _ & _ & a & v & EA & [HA|(doc & e' & HA)] & _);
    cbn [Codegen.cArgs] in EA; injection EA as <- _; [auto|].
  apply in_full in HA; [|discriminate]. destruct (decl_in _ _ _ _ _ HFl HA) as (q2 & i2 & v2 & c2 & w2 & e2 & k2 & A & _ & _ & [[K _]|[[_ K]|K]]); try discriminate K.
  eapply NL; eauto.
Qed.

(** ** Examples *)

Definition lowerCase (c : Z) : Z := if (65 <=? c) && (c <=? 90) then c + 32 else c.
Definition upperCase (c : Z) : Z := if (97 <=? c) && (c <=? 122) then c - 32 else c.
Definition letterB (c : Z) : bool := ((65 <=? c) && (c <=? 90)) || ((97 <=? c) && (c <=? 122)) || (c =? 95).

(** [strcase.ToCamel] without its treatment of digits. *)
Fixpoint camel (up : bool) (w : bytes) : bytes :=
  match w with
  | [] => []
  | c :: r => if existsb (Z.eqb c) (str "-_. ") then camel true r else (if up then upperCase c else c) :: camel false r
  end.

(** [token.IsIdentifier] on ASCII, with some of the keywords. *)
Definition XGo : GenExt := mkGenExt
  (camel true)
  (fun w => match w with
            | c :: r => letterB c && forallb (fun c => letterB c || ((48 <=? c) && (c <=? 57))) r &&
                        negb (existsb (beq w) (map str ["type"; "map"; "range"; "func"; "var"; "package"; "struct"]))
            | [] => false
            end)
  (map lowerCase) (fun _ => str "1.5") false.

(** An accepted file, with a reference and nested structs; and three rejected ones. *)
Definition goDoc : bytes := str "person = [name: tstr, age: uint, home: address] " ++ str "address = [street: tstr, ? owners: * person] ".

Lemma goName_by : forall i w, transpileIdentifier XGo i = Ok w -> GoName XGo (iName i) w.
Proof. intros i w H. now apply name_iff. Qed.

Lemma goName_is : forall i u w, GoName XGo (iName i) w -> transpileIdentifier XGo i = Ok u -> w = u.
Proof. intros i u w H E. apply name_iff in H. congruence. Qed.

Lemma goDoc_rules : exists p1 i1 v1 p2 i2 v2, rulesOf goDoc = [NRule p1 i1 v1 None; NRule p2 i2 v2 None] /\
  transpileIdentifier XGo i1 = Ok (str "Person") /\ transpileIdentifier XGo i2 = Ok (str "Address") /\
  iName i1 = str "person" /\ iName i2 = str "address" /\
  (exists q l, v1 = NArray q l) /\ (exists q l, v2 = NArray q l) /\
  (forall w, Holds XGo v1 w -> w = str "Address") /\ (forall w, ~ Holds XGo v2 w) /\
  (forall I T : bytes -> Prop, I (str "Name") -> I (str "Age") -> I (str "Home") -> I (str "Street") -> I (str "Owners") ->
     (forall w, In w universeTypes -> T w) -> T (str "Person") -> T (str "Address") -> GoValue XGo I T v1 /\ GoValue XGo I T v2) /\
  (forall (I T : bytes -> Prop) q l ws, v1 = NArray q l \/ v2 = NArray q l -> GoMembers XGo I T l ws -> ~ In (str "Valid") ws).
Proof.
  eexists _, _, _, _, _, _. split; [vm_compute; reflexivity|]. split; [reflexivity|]. split; [reflexivity|]. split; [reflexivity|]. split; [reflexivity|].
  split; [eexists _, _; reflexivity|]. split; [eexists _, _; reflexivity|].
  split; [|split; [|split]].
  - intros w H. inversion H as [| |? ? m ? IN HM| |]; subst. clear H.
    destruct IN as [<-|[<-|[<-|[]]]]; inversion HM as [| | |? ? ? ? ? HV|]; subst; inversion HV; subst. eapply goName_is; eauto.
  - intros w H. inversion H as [| |? ? m ? IN HM| |]; subst. clear H.
    destruct IN as [<-|[<-|[]]]; inversion HM as [| | |? ? ? ? ? HV|? ? ? ? HV]; subst; inversion HV as [| | |? ? ? ? ? HW|]; subst. inversion HW.
  - intros I T H1 H2 H3 H4 H5 HU HP HA. split.
    + eapply gv_array.
      * eapply gm_member; [apply goName_by; reflexivity|exact H1|eapply gv_base; [reflexivity|simpl; tauto]|].
        eapply gm_member; [apply goName_by; reflexivity|exact H2|eapply gv_base; [reflexivity|simpl; tauto]|].
        eapply gm_member; [apply goName_by; reflexivity|exact H3|eapply gv_name; [apply goName_by; reflexivity|exact HA]|constructor].
      * vm_compute. repeat (constructor; [simpl; intuition discriminate|]). constructor.
    + eapply gv_array.
      * eapply gm_member; [apply goName_by; reflexivity|exact H4|eapply gv_base; [reflexivity|simpl; tauto]|].
        eapply gm_optional; [apply goName_by; reflexivity|exact H5| |constructor].
        eapply gv_many, gv_name; [apply goName_by; reflexivity|exact HP].
      * vm_compute. repeat (constructor; [simpl; intuition discriminate|]). constructor.
  - intros I T q l ws [E|E] H; injection E as _ <-.
    + inversion H as [|? ? ? ? w1 ? ws1 N1 _ _ M1| |]; subst. inversion M1 as [|? ? ? ? w2 ? ws2 N2 _ _ M2| |]; subst.
      inversion M2 as [|? ? ? ? w3 ? ws3 N3 _ _ M3| |]; subst. inversion M3; subst.
      apply goName_is with (u := str "Name") in N1; [|reflexivity]. apply goName_is with (u := str "Age") in N2; [|reflexivity].
      apply goName_is with (u := str "Home") in N3; [|reflexivity]. subst. simpl. intuition discriminate.
    + inversion H as [|? ? ? ? w1 ? ws1 N1 _ _ M1| |]; subst. inversion M1 as [| |? ? ? ? ? ? w2 ? ws2 N2 _ _ M2|]; subst. inversion M2; subst.
      apply goName_is with (u := str "Street") in N1; [|reflexivity]. apply goName_is with (u := str "Owners") in N2; [|reflexivity].
      subst. simpl. intuition discriminate.
Qed.

Example C78_ex_compilable : Compilable XGo (fun w => gIsIdent XGo w = true) false (str "main") (rulesOf goDoc) /\ Fresh XGo (rulesOf goDoc).
Proof.
  assert (RS : ruleSizes (rulesOf goDoc) = 0%nat) by reflexivity.
  destruct goDoc_rules as (p1 & i1 & v1 & p2 & i2 & v2 & ER & T1 & T2 & E1 & E2 & (q1 & l1 & A1) & (q2 & l2 & A2) & HH1 & HH2 & HV & HM). rewrite ER in *.
  pose proof (goName_by _ _ T1) as G1. pose proof (goName_by _ _ T2) as G2.
  set (l := [NRule p1 i1 v1 None; NRule p2 i2 v2 None]).
  assert (HL : forall p i v c, In (NRule p i v c) l -> (i = i1 /\ v = v1) \/ (i = i2 /\ v = v2)).
  { intros p i v c [H|[H|[]]]; injection H as <- <- <- <-; auto. }
  assert (R1 : RuleName XGo l (str "Person")) by (exists v1, p1, i1, None; split; [now left|exact G1]).
  assert (R2 : RuleName XGo l (str "Address")) by (exists v2, p2, i2, None; split; [right; now left|exact G2]).
  assert (RF : forall a b, refers XGo l a b -> a = str "Person" /\ b = str "Address").
  { intros a b (v & (p & i & c & HI & HN) & HB). destruct (HL _ _ _ _ HI) as [[-> ->]|[-> ->]]; [|exfalso; eapply HH2; eauto].
    split; [eapply goName_is; eauto|auto]. }
  split; [split|].
  - split; [reflexivity|discriminate].
  - exists [str "Person"; str "Address"]. split; [|split].
    + cbn [filter isRule l]. constructor; [exact G1|]. constructor; [exact G2|constructor].
    + constructor; [intros [K|[]]; discriminate K|]. constructor; [intros []|constructor].
    + repeat constructor.
  - intros p i v c HI. destruct (HL _ _ _ _ HI) as [[-> _]|[-> _]]; [rewrite E1|rewrite E2]; reflexivity.
  - intros p i v c HI. destruct (HV (fun w => gIsIdent XGo w = true) (fun w => RuleName XGo l w \/ In w universeTypes)) as [K1 K2]; try reflexivity; auto.
    destruct (HL _ _ _ _ HI) as [[_ ->]|[_ ->]]; auto.
  - intros w H. assert (K : forall a b, clos_trans bytes (refers XGo l) a b -> a = str "Person" /\ b = str "Address").
    { induction 1 as [a b H1|a b c H1 IH1 H2 IH2]; [now apply RF|]. split; [apply IH1|apply IH2]. }
    apply K in H. destruct H as [K1 K2]. rewrite K1 in K2. discriminate K2.
  - intros w (v & p & i & c & HI & HN) HA. inversion HA as [? HW|? j m (p' & i' & c' & HI' & _) _ _]; subst w.
    + apply HL in HI. destruct HI as [[-> _]|[-> _]].
      * rewrite (goName_is _ _ _ HN T1) in HW. simpl in HW. intuition discriminate.
      * rewrite (goName_is _ _ _ HN T2) in HW. simpl in HW. intuition discriminate.
    + apply HL in HI'. destruct HI' as [[_ K]|[_ K]]; subst; discriminate K.
  - intros p i q g c v ws HI [->| ->] HG; apply HL in HI.
    + destruct HI as [[_ K]|[_ K]]; subst; discriminate K.
    + eapply HM; [|exact HG]. destruct HI as [[_ K]|[_ K]]; [left|right]; symmetry; exact K.
  - intros p i c q t q' t' n ty HI. apply HL in HI. destruct HI as [[_ K]|[_ K]]; subst; discriminate K.
  - intros K. fold l in RS. lia.
  - intros p i v c HI. split.
    + destruct (HL _ _ _ _ HI) as [[-> _]|[-> _]]; [rewrite E1|rewrite E2]; discriminate.
    + intros w HN. destruct (HL _ _ _ _ HI) as [[-> _]|[-> _]].
      * rewrite (goName_is _ _ _ HN T1). simpl. intuition discriminate.
      * rewrite (goName_is _ _ _ HN T2). simpl. intuition discriminate.
Qed.

Definition goFile (pkg s : bytes) : option generator :=
  match visit XGo (NCDDL zeroPos (rulesOf s)) (newGenerator pkg) with Ok g => Some (genString XGo g) | _ => None end.

Example C78_ex_accepted : exists g, goFile (str "main") goDoc = Some g /\ GoOk (fun w => gIsIdent XGo w = true) false (gPkg g) (gDecls g).
Proof.
  unfold goFile. destruct (visit XGo _ _) as [g| | |] eqn:E; [|vm_compute in E; discriminate E..].
  eexists. split; [reflexivity|]. destruct C78_ex_compilable as [HC HF]. eapply C78_iff; eauto.
  intros p r K. destruct goDoc_rules as (p1 & i1 & v1 & p2 & i2 & v2 & ER & _). rewrite ER in K. destruct K as [K|[K|[]]]; discriminate K.
Qed.

Lemma XGo_lower : forall b w, In b (str "$-.@") -> In b w -> In b (gToLower XGo w).
Proof.
  intros b w HB HW. cbn [gToLower XGo]. apply (in_map lowerCase) in HW. enough (lowerCase b = b) by congruence.
  simpl in HB. destruct HB as [<-|[<-|[<-|[<-|[]]]]]; reflexivity.
Qed.

Lemma XGo_ident : forall b w, In b (str "$-.@") -> gIsIdent XGo w = true -> ~ In b w.
Proof.
  intros b w HB HI HW. destruct w as [|c r]; [discriminate HI|]. cbn [gIsIdent XGo] in HI. apply andb_prop in HI. destruct HI as [HI _].
  apply andb_prop in HI. destruct HI as [HC HR]. rewrite forallb_forall in HR. destruct HW as [->|HW].
  - simpl in HB. destruct HB as [<-|[<-|[<-|[<-|[]]]]]; discriminate HC.
  - specialize (HR _ HW). simpl in HB. destruct HB as [<-|[<-|[<-|[<-|[]]]]]; discriminate HR.
Qed.

Lemma goFile_by : forall pkg s l (P : generator -> Prop), rulesOf s = l -> goFile pkg s <> None ->
  (forall g, visit XGo (NCDDL zeroPos l) (newGenerator pkg) = Ok g -> P (genString XGo g)) -> exists g, goFile pkg s = Some g /\ P g.
Proof.
  intros pkg s l P E N H. unfold goFile in *. rewrite E in *. destruct (visit XGo _ _) as [g| | |]; [|exfalso; now apply N..].
  eexists. split; [reflexivity|]. now apply H.
Qed.

Lemma isSome : forall (A : Type) (x : option A), match x with Some _ => true | None => false end = true -> x <> None.
Proof. intros A [x|]; discriminate. Qed.

Definition Rejected (s : string) : Prop :=
  exists g, goFile (str "main") (str s) = Some g /\ ~ GoOk (fun w => gIsIdent XGo w = true) true (gPkg g) (gDecls g).

Ltac oneRule := let K := fresh in intros ? ? [K|[]]; discriminate K.

(** Rejected: a name with a hyphen, a literal, a size constraint. *)
Example C78_ex_rejected : Rejected "home-address = tstr " /\ Rejected "limit = 5 " /\ Rejected "hash = tstr .size 32 ".
Proof.
  split; [|split]; unfold Rejected.
  - eapply goFile_by with (P := fun g => ~ GoOk _ _ (gPkg g) (gDecls g)); [vm_compute; reflexivity|apply isSome; vm_compute; reflexivity|].
    intros g E. eapply (C78_odd_names XGo) with (b := 45); [|exact E|..].
    + oneRule.
    + simpl; tauto.
    + intros w. apply XGo_lower. simpl; tauto.
    + intros w. apply XGo_ident. simpl; tauto.
    + left. reflexivity.
    + simpl; tauto.
  - eapply goFile_by with (P := fun g => ~ GoOk _ _ (gPkg g) (gDecls g)); [vm_compute; reflexivity|apply isSome; vm_compute; reflexivity|].
    intros g E. eapply (C78_literal XGo); [|exact E|..].
    + oneRule.
    + left. reflexivity.
    + left. eexists _, _, _; reflexivity.
  - eapply goFile_by with (P := fun g => ~ GoOk _ _ (gPkg g) (gDecls g)); [vm_compute; reflexivity|apply isSome; vm_compute; reflexivity|].
    intros g E. eapply (C78_size XGo); [|exact E|..].
    + oneRule.
    + left. reflexivity.
    + discriminate.
Qed.
