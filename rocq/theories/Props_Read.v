(** Property C96: reading data into values of generated types. *)
From Coq Require Import String.
From Verif Require Import Base Utf8 Token Strconv Ext Ast Env Parser Doc Props_Parser Codegen GoSpec Props_Codegen Props_GoFile JsonSpec Props_Json Cddl GoCbor GoRead Props_Meaning
  DocText Props_Lexer Props_Doc Props_Lossy.
Open Scope string_scope.
Open Scope list_scope.
Open Scope Z_scope.

Section Proofs.
Variables (X : GenExt) (E : bytes -> Prop) (K : bytes -> cls) (rs : list rule) (opt : bool) (ds : list gdecl).
Hypothesis (HD : Declares X rs ds) (HP : Forall (PlainRule X E K rs opt) rs) (HE : ~ E (str "_")).

Notation once := (dc_once _ _ _ HD _ _ _ _ _).
Ltac base := exfalso; eapply (declared_no_base X rs ds HD); eauto; simpl; tauto.

(** ** Reading gives one value at most *)

Lemma zero_fun :
  (forall t v, Zero ds t v -> forall v', Zero ds t v' -> v = v') /\ (forall fs vs, Zeros ds fs vs -> forall vs', Zeros ds fs vs' -> vs = vs').
Proof.
  apply (zero_ind ds (fun t v _ => forall v', Zero ds t v' -> v = v') (fun fs vs _ => forall vs', Zeros ds fs vs' -> vs = vs')).
  1-5: intros v' H; inversion H; subst; auto; base.
  - intros doc n e v HI HZ IH v' H. inversion H as [| | | | |doc' n' e' v'' HI' HZ'| |]; subst; try base. rewrite (once HI' HI) in HZ'. auto.
  - intros e v' H. now inversion H.
  - intros fs vs HZ IH v' H. inversion H; subst. f_equal. auto.
  - intros vs' H. now inversion H.
  - intros ns e tag fs v vs N HZ IH HZs IHs vs' H. inversion H; subst. f_equal; auto.
Qed.

Lemma dec_null : forall t c v, Dec ds E t c v -> c = CNull -> Zero ds t v.
Proof.
  intros t c v H. induction H; intros Ec; try discriminate Ec; auto. econstructor; eauto.
Qed.

Definition sig (x : leaf) : bytes * nat * gexpr := (lName x, lDepth x, lType x).

Lemma leaves_sig : forall d fs vs l, Leaves ds E d fs vs l -> forall vs' l', Leaves ds E d fs vs' l' -> map sig l = map sig l'.
Proof.
  intros d fs vs l H. induction H as [d|d n e tag fs v vs l HX HL IH|d n e tag fs v vs l HX HL IH|d n tag gs us fs vs l l' HS HL' IH' HL IH|d n tag fs v vs l HS HX HL IH|d n tag fs v vs l HS HX HL IH];
    intros vs' m HM; inversion HM; subst; try contradiction; auto.
  - cbn [map]. unfold sig at 1 3. cbn [lName lDepth lType]. f_equal. eauto.
  - eauto.
  - match goal with H1 : IsStruct ds (GIdent n) gs, H2 : IsStruct ds (GIdent n) ?gs' |- _ => pose proof (isStruct_fun X rs ds HD _ _ H1 _ H2); subst end.
    rewrite !map_app. f_equal; eauto.
  - exfalso. eapply H3; eauto.
  - exfalso. eapply H3; eauto.
  - exfalso. eapply HS; eauto.
  - cbn [map]. unfold sig at 1 3. cbn [lName lDepth lType]. f_equal. eauto.
  - exfalso. eapply HS; eauto.
  - eauto.
Qed.

Lemma rivals_sig : forall l l' x x', map sig l = map sig l' -> sig x = sig x' -> length (rivals l x) = length (rivals l' x').
Proof.
  intros l. induction l as [|y l IH]; intros [|y' l'] x x' H Hx; try discriminate H; auto. cbn [map] in H. injection H as H1 H2 H3 H.
  assert (Q : lName x = lName x' /\ lDepth x = lDepth x') by (unfold sig in Hx; split; congruence). destruct Q as [Q1 Q2].
  unfold rivals. cbn [filter]. rewrite H1, H2, Q1, Q2. specialize (IH _ _ _ H Hx). unfold rivals in IH. rewrite Q1, Q2 in IH.
  destruct (beq (lName y') (lName x') && (lDepth y' <=? lDepth x')%nat); cbn [length]; auto.
Qed.

Lemma visible_sig : forall l l', map sig l = map sig l' -> map sig (visible l) = map sig (visible l').
Proof.
  intros l l' H. unfold visible.
  assert (G : forall m m', map sig m = map sig m' -> map sig (filter (fun x => (length (rivals l x) =? 1)%nat) m) = map sig (filter (fun x => (length (rivals l' x) =? 1)%nat) m')).
  { induction m as [|y m IH]; intros [|y' m'] Hm; try discriminate Hm; auto. cbn [map] in Hm. assert (Hy : sig y = sig y') by congruence.
    assert (Hm' : map sig m = map sig m') by congruence. cbn [filter]. rewrite (rivals_sig l l' y y' H Hy).
    destruct (length (rivals l' y') =? 1)%nat; cbn [map]; auto. rewrite Hy. f_equal. auto. }
  now apply G.
Qed.

(** A visible field is the only one of its name and depth. *)
Lemma visible_only : forall l x y, In x (visible l) -> In y l -> lName y = lName x -> lDepth y = lDepth x -> x = y.
Proof.
  intros l x y Hx Hy HN Hd. unfold visible in Hx. apply filter_In in Hx as [Hx HL]. apply Nat.eqb_eq in HL.
  assert (Ax : In x (rivals l x)) by (apply filter_In; split; auto; rewrite (proj2 (EnvProofs.beq_iff _ _) eq_refl), Nat.leb_refl; reflexivity).
  assert (Ay : In y (rivals l x)) by (apply filter_In; split; auto; rewrite HN, Hd, (proj2 (EnvProofs.beq_iff _ _) eq_refl), Nat.leb_refl; reflexivity).
  destruct (rivals l x) as [|a [|b r]]; try discriminate HL. destruct Ax as [<-|[]], Ay as [<-|[]]. reflexivity.
Qed.

(** Fields with the same visible ones, the others being zero, are the same. *)
Lemma rest_fun : forall all all' d fs vs, visible all = visible all' -> Rest ds E all d fs vs -> forall l, Leaves ds E d fs vs l -> incl l all ->
  forall vs' l', Rest ds E all' d fs vs' -> Leaves ds E d fs vs' l' -> incl l' all' -> vs = vs'.
Proof.
  intros all all' d fs vs HV.
  assert (G : forall n d e v v', In (mkLeaf n d e v) (visible all) \/ Zero ds e v -> In (mkLeaf n d e v) all ->
    In (mkLeaf n d e v') (visible all') \/ Zero ds e v' -> In (mkLeaf n d e v') all' -> v = v').
  { intros n d0 e v v' [H1|H1] H2 [H3|H3] H4.
    - rewrite HV in H1. pose proof (visible_only _ _ _ H1 H4 eq_refl eq_refl) as Q. now injection Q.
    - rewrite HV in H1. pose proof (visible_only _ _ _ H1 H4 eq_refl eq_refl) as Q. now injection Q.
    - rewrite <- HV in H3. pose proof (visible_only _ _ _ H3 H2 eq_refl eq_refl) as Q. now injection Q.
    - eapply (proj1 zero_fun); eauto. }
  intros H. induction H as [d|d n e tag fs v vs HX HZ HR IH|d n e tag fs v vs HX HZ HR IH|d n tag gs us fs vs HS HR' IH' HR IH|d n tag fs v vs HS HX HZ HR IH|d n tag fs v vs HS HX HZ HR IH];
    intros l HL HI vs' l' HR2 HL2 HI2; inversion HR2; subst; try contradiction; auto; try (exfalso; match goal with A : forall gs, ~ IsStruct ds (GIdent n) gs, B : IsStruct ds (GIdent n) _ |- _ => eapply A; exact B end).
  - inversion HL; subst; [|contradiction]. inversion HL2; subst; [|contradiction]. f_equal.
    + eapply G; eauto; [apply HI|apply HI2]; now left.
    + eapply IH; eauto; intros y Hy; [apply HI|apply HI2]; now right.
  - inversion HL; subst; [contradiction|]. inversion HL2; subst; [contradiction|]. f_equal; [eapply (proj1 zero_fun); eauto|eapply IH; eauto].
  - inversion HL; subst; try (exfalso; match goal with A : forall gs, ~ IsStruct ds (GIdent n) gs, B : IsStruct ds (GIdent n) _ |- _ => eapply A; exact B end).
    inversion HL2; subst; try (exfalso; match goal with A : forall gs, ~ IsStruct ds (GIdent n) gs, B : IsStruct ds (GIdent n) _ |- _ => eapply A; exact B end).
    repeat match goal with H2 : IsStruct ds (GIdent n) ?gs' |- _ => lazymatch gs' with gs => fail | _ => pose proof (isStruct_fun X rs ds HD _ _ HS _ H2); subst gs'; clear H2 end end.
    f_equal.
    + f_equal. eapply IH'; eauto; intros y Hy; [apply HI|apply HI2]; apply in_or_app; now left.
    + eapply IH; eauto; intros y Hy; [apply HI|apply HI2]; apply in_or_app; now right.
  - inversion HL; subst; try contradiction; try (exfalso; match goal with A : forall gs, ~ IsStruct ds (GIdent n) gs, B : IsStruct ds (GIdent n) _ |- _ => eapply A; exact B end).
    inversion HL2; subst; try contradiction; try (exfalso; match goal with A : forall gs, ~ IsStruct ds (GIdent n) gs, B : IsStruct ds (GIdent n) _ |- _ => eapply A; exact B end).
    f_equal.
    + eapply G; eauto; [apply HI|apply HI2]; now left.
    + eapply IH; eauto; intros y Hy; [apply HI|apply HI2]; now right.
  - inversion HL; subst; try contradiction; try (exfalso; match goal with A : forall gs, ~ IsStruct ds (GIdent n) gs, B : IsStruct ds (GIdent n) _ |- _ => eapply A; exact B end).
    inversion HL2; subst; try contradiction; try (exfalso; match goal with A : forall gs, ~ IsStruct ds (GIdent n) gs, B : IsStruct ds (GIdent n) _ |- _ => eapply A; exact B end).
    f_equal; [eapply (proj1 zero_fun); eauto|eapply IH; eauto].
Qed.

Lemma sig_leaf : forall x y, sig x = sig y -> lVal x = lVal y -> x = y.
Proof. intros [a b c v] [a' b' c' v']. unfold sig. cbn. intros H ->. now injection H as -> -> ->. Qed.

Lemma slice_sig : forall e l l', length l = length l' -> map sig (map (mkLeaf [] 0 e) l) = map sig (map (mkLeaf [] 0 e) l').
Proof. intros e l. induction l as [|v l IH]; intros [|v' l'] H; try discriminate H; auto. cbn [map]. f_equal. auto. Qed.

Lemma slice_same : forall e l l', map (mkLeaf [] 0 e) l = map (mkLeaf [] 0 e) l' -> l = l'.
Proof. intros e l. induction l as [|v l IH]; intros [|v' l'] H; try discriminate H; auto. injection H as -> H. f_equal. auto. Qed.

Lemma decAll_length : forall l cs, DecAll ds E l cs -> length l = length cs.
Proof. intros l cs H. induction H; cbn [length]; auto. Qed.

Lemma dec_fun :
  (forall t c v, Dec ds E t c v -> forall v', Dec ds E t c v' -> v = v') /\
  (forall l cs, DecAll ds E l cs -> forall l', map sig l = map sig l' -> DecAll ds E l' cs -> l = l').
Proof.
  apply (dec_ind ds E (fun t c v _ => forall v', Dec ds E t c v' -> v = v') (fun l cs _ => forall l', map sig l = map sig l' -> DecAll ds E l' cs -> l = l')).
  1-5: intros; match goal with H : Dec _ _ _ _ _ |- _ => inversion H; subst; auto end; base.
  - intros doc n e c v HI HC IH v' H. inversion H as [| | | | |doc' n' e' c' v'' HI' HC'|e' v'' HZ| | |]; subst; try base.
    + rewrite (once HI' HI) in HC'. auto.
    + apply IH. apply de_null. inversion HZ as [| | | | |doc' n' e' v'' HI' HZ'| |]; subst; try base. rewrite (once HI' HI) in HZ'. exact HZ'.
  - intros e v HZ v' H. eapply (proj1 zero_fun); eauto. eapply dec_null; eauto.
  - intros s HS v' H. inversion H; subst; auto.
  - intros e l cs HC IH v' H. inversion H as [| | | | | | | |e' l' cs' HC'|]; subst. do 2 f_equal. apply (slice_same e). apply IH; auto.
    apply slice_sig. apply decAll_length in HC. apply decAll_length in HC'. rewrite map_length in HC, HC'. congruence.
  - intros fs vs l cs HA HL HC IH HR v' H. inversion H as [| | | | | | | | |fs' vs' l' cs' HA' HL' HC' HR']; subst. f_equal.
    pose proof (leaves_sig _ _ _ _ HL _ _ HL') as HS. eapply (rest_fun l l'); eauto using incl_refl.
    apply IH; auto. now apply visible_sig.
  - intros l' H1 H2. inversion H2; subst; auto.
  - intros x l c cs HC IHc HL IHl l' H1 H2. inversion H2 as [|x' l2 c' cs' HC' HL']; subst. cbn [map] in H1. injection H1 as N1 N2 N3 H1.
    f_equal; auto. apply sig_leaf; [unfold sig; congruence|]. apply IHc. congruence.
Qed.

(** ** What is read is a value of the type *)

Lemma zero_typed :
  (forall t v, Zero ds t v -> HasType ds t v) /\ (forall fs vs, Zeros ds fs vs -> HaveTypes ds fs vs).
Proof.
  apply (zero_ind ds (fun t v _ => HasType ds t v) (fun fs vs _ => HaveTypes ds fs vs)); try (intros; econstructor; eauto; unfold isByte; lia).
Qed.

Lemma struct_typed : forall t gs, IsStruct ds t gs -> forall us, HaveTypes ds gs us -> HasType ds t (VStruct us).
Proof. intros t gs H. induction H; intros us HU; [now constructor|]. econstructor; eauto. Qed.

Lemma rest_typed : forall all d fs vs, Rest ds E all d fs vs -> (forall x, In x (visible all) -> HasType ds (lType x) (lVal x)) -> HaveTypes ds fs vs.
Proof.
  intros all d fs vs H HV.
  assert (G : forall n d e v, In (mkLeaf n d e v) (visible all) \/ Zero ds e v -> HasType ds e v).
  { intros n d0 e v [H1|H1]; [exact (HV _ H1)|now apply zero_typed]. }
  induction H; constructor; try (apply zero_typed; assumption); eauto; try (simpl; lia). eapply struct_typed; eauto.
Qed.

Lemma leaf_list : forall e l, (forall x, In x (map (mkLeaf [] 0 e) l) -> HasType ds (lType x) (lVal x)) -> HasTypes ds e l.
Proof.
  intros e l. induction l as [|v l IH]; intros H; constructor; [exact (H (mkLeaf [] 0 e v) (or_introl eq_refl))|]. apply IH. intros x Hx. apply H. now right.
Qed.

Lemma byte_list : forall s, Forall isByte s -> HasTypes ds (GIdent (str "byte")) (map VUint s).
Proof. intros s H. induction H; cbn [map]; constructor; auto. now constructor. Qed.

Lemma dec_typed :
  (forall t c v, Dec ds E t c v -> HasType ds t v) /\ (forall l cs, DecAll ds E l cs -> forall x, In x l -> HasType ds (lType x) (lVal x)).
Proof.
  apply (dec_ind ds E (fun t c v _ => HasType ds t v) (fun l cs _ => forall x, In x l -> HasType ds (lType x) (lVal x))); try (intros; econstructor; eauto; fail).
  - intros s HS. constructor. now apply Props_Json.utf8_bytes.
  - intros e v HZ. now apply zero_typed.
  - intros s HS. constructor. now apply byte_list.
  - intros e l cs HC IH. constructor. now apply leaf_list.
  - intros fs vs l cs HA HL HC IH HR. constructor. eapply rest_typed; eauto.
  - intros x [].
  - intros x l c cs HC IHc HL IHl y [<-|Hy]; auto.
Qed.

(** ** What is read is written as what was read, but for byte strings *)

Lemma byte_items : forall cs l, DecAll ds E (map (mkLeaf [] 0 (GIdent (str "byte"))) l) cs -> StrictAll cs -> forall s, l = map VUint s -> cs = map CInt s.
Proof.
  intros cs. induction cs as [|c cs IH]; intros l H HS s ->; inversion H as [E1|x l' c' cs' HC HL E1]; subst.
  - destruct s; [reflexivity|discriminate E1].
  - destruct s as [|z0 s]; [discriminate E1|]. cbn [map] in E1. injection E1 as -> ->. inversion HS as [|c0 cs0 HS1 HS2]; subst. cbn [map lType lVal] in *.
    f_equal; [|eapply IH; eauto]. inversion HC; subst; auto; try base. inversion HS1.
Qed.

Lemma dec_loose :
  (forall t c v, Dec ds E t c v -> Strict c -> forall y, Enc ds E t v y -> Loose c y) /\
  (forall l cs, DecAll ds E l cs -> StrictAll cs -> forall ys, EncAll ds E l ys -> LooseAll cs ys).
Proof.
  apply (dec_ind ds E (fun t c v _ => Strict c -> forall y, Enc ds E t v y -> Loose c y) (fun l cs _ => StrictAll cs -> forall ys, EncAll ds E l ys -> LooseAll cs ys)).
  1-5: intros; match goal with H : Enc _ _ _ _ _ |- _ => inversion H; subst; try constructor; auto end; base.
  - intros doc n e c v HI HC IH HS y H. inversion H as [| | | | |doc' n' e' v' c' HI' HC'| | | |]; subst; try base. rewrite (once HI' HI) in HC'. auto.
  - intros e v HZ HS. inversion HS.
  - intros s HS' HS y H. inversion H as [| | | | | | |s' E1|e' l' cs' N E1|]; subst; [|contradiction].
    match goal with Q : map VUint _ = map VUint _ |- _ => apply map_VUint in Q; subst end. constructor.
  - intros e l cs HC IH HS y H. inversion HS as [| | |cs' HS'| | |]; subst. inversion H as [| | | | | | |s' E1|e' l' cs' N E1|]; subst.
    + rewrite (byte_items _ _ HC HS' s' eq_refl). constructor.
    + constructor. auto.
  - intros fs vs l cs HA HL HC IH HR HS y H. inversion HS; subst. inversion H as [| | | | | | | | |fs' vs' l' cs' HA' HL' HC']; subst. constructor.
    rewrite <- (leaves_fun X E rs ds HD _ _ _ _ HL _ HL') in HC'. auto.
  - intros HS ys H. inversion H. constructor.
  - intros x l c cs HC IHc HL IHl HS ys H. inversion HS; subst. inversion H; subst. constructor; auto.
Qed.

(** ** The fields of plain structs *)

(** The type of a plain expression. *)
Definition PlainType (t : gexpr) : Prop := exists e c k, Plain X E K rs opt c e /\ Apart X K rs e /\ TypeIs X (tree e) t k.

(** No two members of the arrays among elements have one Go name. *)
Definition ApartAmong (es : elems) : Prop := forall es', ArrayAmong es es' -> forall ns, MembersAll X K rs es' ns -> NoDup ns.

Lemma group_fields : forall t gs, IsStruct ds t gs -> forall e k, PlainBody X E K rs opt Grp e -> Apart X K rs e -> TypeIs X (tree e) t k ->
  exists es k', PlainElems X E K rs opt es /\ ApartAmong es /\ EntriesAre X (trees es) gs k' /\ forall ns, MembersAll X K rs es ns -> Members X K rs e ns.
Proof.
  intros t gs H. induction H as [fs|doc n e0 fs HI H IH]; intros e k HB HA HT; destruct (body_cases _ _ _ _ _ e HB) as [(es & -> & Hes)|(w & -> & Hw & Hn)].
  - apply group_is in HT as (fs' & HT & HEn). injection HT as <-. exists es, k. split; auto. split; [intros es' Hin ns Hm; eapply HA; eauto; now constructor|].
    split; auto. intros ns Hm. now constructor.
  - apply name_is in HT as (m & _ & HT). discriminate HT.
  - apply group_is in HT as (fs' & HT & _). discriminate HT.
  - apply name_is in HT as (m & HN & HT). injection HT as <-. destruct (follow X E K rs opt ds HD HP _ _ _ _ Hn HN HI) as (r & k' & A & B & C & D & G).
    rewrite Hw in D. destruct (IH (rBody r) k' D G C) as (es & k2 & E1 & E2 & E3 & E4). exists es, k2. split; auto. split; auto. split; auto.
    intros ns Hm. eapply mb_group; eauto.
Qed.

(** A value of the type of a group is a struct. *)
Lemma group_struct : forall t v, HasType ds t v -> forall e k, PlainBody X E K rs opt Grp e -> TypeIs X (tree e) t k -> exists gs, IsStruct ds t gs.
Proof.
  assert (BA : forall n, In n universeTypes -> forall e k, PlainBody X E K rs opt Grp e -> TypeIs X (tree e) (GIdent n) k -> exists gs, IsStruct ds (GIdent n) gs).
  { intros n HU e k HB HT. exfalso. eapply (grp_no_base X E K rs opt ds HD); eauto. }
  intros t v H. induction H as [| | | | |doc n e0 v HI HT0 IH|e|e l HL|fs vs HF]; intros e1 k HB HT; try (eapply BA; eauto; simpl; tauto).
  - destruct (body_cases _ _ _ _ _ e1 HB) as [(es & -> & _)|(w & -> & Hw & Hn)].
    + apply group_is in HT as (fs & HT & _). discriminate HT.
    + apply name_is in HT as (m & HN & HT). injection HT as <-. destruct (follow X E K rs opt ds HD HP _ _ _ _ Hn HN HI) as (r & k' & A & B & C & D & G).
      rewrite Hw in D. destruct (IH _ _ D C) as [gs HG]. exists gs. econstructor; eauto.
  - exfalso. destruct (body_cases _ _ _ _ _ e1 HB) as [(es & -> & _)|(w & -> & Hw & Hn)]; [apply group_is in HT as (fs & HT & _)|apply name_is in HT as (m & HN & HT)]; discriminate HT.
  - exfalso. destruct (body_cases _ _ _ _ _ e1 HB) as [(es & -> & _)|(w & -> & Hw & Hn)]; [apply group_is in HT as (gs & HT & _)|apply name_is in HT as (m & HN & HT)]; discriminate HT.
  - exists fs. constructor.
Qed.

Lemma struct_inv : forall t gs, IsStruct ds t gs -> forall us, HasType ds t (VStruct us) -> HaveTypes ds gs us.
Proof.
  intros t gs H. induction H as [fs|doc n e fs HI H IH]; intros us HT; inversion HT as [| | | | |doc' n' e' v HI' HT'| | |]; subst; auto.
  apply IH. rewrite (once HI HI'). exact HT'.
Qed.

(** What there is to know of the fields of a plain array or group. *)
Definition Known (es : elems) (d : nat) (fs : list gfield) (vs : list gval) (l : list leaf) : Prop :=
  MembersAll X K rs es (map lName l) /\ Forall (fun x => PlainType (lType x) /\ HasType ds (lType x) (lVal x)) l /\
  (Forall (fun x => Proper (lVal x)) l <-> ProperAll vs) /\ forall all, incl l (visible all) -> Rest ds E all d fs vs.

Lemma proper_app : forall l l', Forall (fun x => Proper (lVal x)) (l ++ l') <-> Forall (fun x => Proper (lVal x)) l /\ Forall (fun x => Proper (lVal x)) l'.
Proof. intros. apply Forall_app. Qed.

Lemma proper_struct : forall us, Proper (VStruct us) <-> ProperAll us.
Proof. intros us. split; intros H; [now inversion H|now constructor]. Qed.

Lemma proper_cons : forall v vs, ProperAll (v :: vs) <-> Proper v /\ ProperAll vs.
Proof. intros v vs. split; [intros H; inversion H; auto|intros [H1 H2]; now constructor]. Qed.

Lemma plain_leaves : forall d fs vs l, Leaves ds E d fs vs l -> HaveTypes ds fs vs -> forall es k, PlainElems X E K rs opt es -> ApartAmong es ->
  EntriesAre X (trees es) fs k -> Known es d fs vs l.
Proof.
  intros d fs vs l H. induction H as [d|d n e tag fs v vs l HX HL IH|d n e tag fs v vs l HX HL IH|d n tag gs us fs vs l l' HS HL' IH' HL IH|d n tag fs v vs l HS HX HL IH|d n tag fs v vs l HS HX HL IH];
    intros HT es k Hes HA HEn.
  { destruct es as [|lead e comma r]; [|cbn [trees] in HEn; inversion HEn]. split; [constructor|]. split; [constructor|]. split; [split; constructor|]. intros. constructor. }
  all: inversion HT as [|ns0 e0 tag0 fs0 v0 vs0 N HTv HTs]; subst; destruct es as [|lead x comma r]; [cbn [trees] in HEn; inversion HEn|]; cbn [trees] in HEn;
    inversion HEn as [|n0 l0 f fs' k1 k2 HEn1 HEn2]; subst; inversion Hes as [|lead' x' comma' r' Hx Hr]; subst;
    assert (HAr : ApartAmong r) by (intros es' Hin ns Hm; eapply HA; eauto; now constructor);
    assert (HAx : Apart X K rs x) by (intros es' ns Hin Hm; eapply HA; eauto; now constructor);
    destruct (IH HTs r k2 Hr HAr HEn2) as (R1 & R2 & R3 & R4); clear IH.
  - (* an exported field *)
    assert (M : Members X K rs x [n] /\ PlainType e).
    { destruct Hx as [kn arrow c u tc Hex Hu|kn arrow c u tc Hopt Hex Hu|w Hw Hn Hex|w Hw Hn]; cbn [tree treePrefix treeAtom] in HEn1; inversion HEn1; subst; rewrite key_text in *.
      - split; [now constructor|]. exists u, c, k1. split; auto. split; auto. intros es' ns' Hin. apply HAx. now constructor.
      - split; [now constructor|]. exists u, c, k1. split; auto. split; auto. intros es' ns' Hin. apply HAx. constructor. now constructor. }
    destruct M as [M1 M2]. split; [|split; [|split]].
    + change (map lName (mkLeaf n d e v :: l)) with ([n] ++ map lName l). now constructor.
    + constructor; auto.
    + rewrite Forall_cons_iff, proper_cons, R3. cbn [lVal]. reflexivity.
    + intros all HI. constructor; auto; [left; apply HI; now left|]. apply R4. intros y Hy. apply HI. now right.
  - (* no other field *)
    exfalso. destruct Hx as [kn arrow c u tc Hex Hu|kn arrow c u tc Hopt Hex Hu|w Hw Hn Hex|w Hw Hn]; cbn [tree treePrefix treeAtom] in HEn1; inversion HEn1; subst; rewrite key_text in *; apply HX, Hex; assumption.
  - (* a group *)
    destruct Hx as [kn arrow c u tc Hex Hu|kn arrow c u tc Hopt Hex Hu|w Hw Hn Hex|w Hw Hn]; cbn [tree treePrefix treeAtom] in HEn1; inversion HEn1; subst.
    { exfalso. apply (scalar_no_struct X E K rs opt ds HD HP _ _ HS (XAtom (AName w)) 0%nat); [|cbn [tree treeAtom]; now constructor]. rewrite <- Hw. apply pl_name; auto. congruence. }
    destruct (group_fields _ _ HS (XAtom (AName w)) 0%nat) as (es' & k' & G1 & G2 & G3 & G4); [now constructor|apply apart_name|cbn [tree treeAtom]; now constructor|].
    destruct (IH' (struct_inv _ _ HS _ HTv) es' k' G1 G2 G3) as (S1 & S2 & S3 & S4). split; [|split; [|split]].
    + rewrite map_app. constructor; auto.
    + apply Forall_app. auto.
    + rewrite Forall_app, proper_cons, proper_struct, R3, S3. reflexivity.
    + intros all HI. eapply re_embedded; eauto; [apply S4|apply R4]; intros y Hy; apply HI, in_or_app; auto.
  - (* a scalar *)
    destruct Hx as [kn arrow c u tc Hex Hu|kn arrow c u tc Hopt Hex Hu|w Hw Hn Hex|w Hw Hn]; cbn [tree treePrefix treeAtom] in HEn1; inversion HEn1; subst.
    2:{ exfalso. destruct (group_struct _ _ HTv (XAtom (AName w)) 0%nat) as [gs HG]; [now constructor|cbn [tree treeAtom]; now constructor|]. eapply HS; eauto. }
    split; [|split; [|split]].
    + change (map lName (mkLeaf n d (GIdent n) v :: l)) with ([n] ++ map lName l). constructor; auto. now constructor.
    + constructor; auto. split; auto. exists (XAtom (AName w)), (K w), 0%nat. split; [apply pl_name; auto; congruence|]. split; [apply apart_name|]. cbn [tree treeAtom]. now constructor.
    + rewrite Forall_cons_iff, proper_cons, R3. cbn [lVal]. reflexivity.
    + intros all HI. apply re_other; auto; [left; apply HI; now left|]. apply R4. intros y Hy. apply HI. now right.
  - exfalso. destruct Hx as [kn arrow c u tc Hex Hu|kn arrow c u tc Hopt Hex Hu|w Hw Hn Hex|w Hw Hn]; cbn [tree treePrefix treeAtom] in HEn1; inversion HEn1; subst.
    + apply HX, Hex. assumption.
    + destruct (group_struct _ _ HTv (XAtom (AName w)) 0%nat) as [gs HG]; [now constructor|cbn [tree treeAtom]; now constructor|]. eapply HS; eauto.
Qed.

(** The same of the struct of an array, whose fields are all visible. *)
Lemma plain_struct : forall fs vs l, PlainType (GStruct fs) -> HaveTypes ds fs vs -> Leaves ds E 0 fs vs l ->
  visible l = l /\ Forall (fun x => PlainType (lType x) /\ HasType ds (lType x) (lVal x)) l /\
  (Forall (fun x => Proper (lVal x)) l <-> ProperAll vs) /\ Rest ds E l 0 fs vs.
Proof.
  intros fs vs l (e & c & k & HPl & HA & HT) HF HL. destruct HPl as [t Ht|w Hw Hn|es Hes].
  - apply base_is in HT; auto. destruct HT as [[_ HT]|[[_ HT]|[[_ HT]|[[_ HT]|[_ HT]]]]]; discriminate HT.
  - apply name_is in HT as (n & _ & HT). discriminate HT.
  - apply array_is in HT as (fs' & HT & HEn). injection HT as ->. inversion HF as [|ns0 e0 tag0 fs0 v vs' N HTv HTs]; subst.
    inversion HL as [|d n e tag fs0 v0 vs0 l0 HX _|d n e tag fs0 v0 vs0 l0 HX HL'| | |]; subst; [contradiction|].
    inversion HTv as [| | | | | | | |gs us HU]; subst. inversion HU; subst.
    destruct (plain_leaves _ _ _ _ HL' HTs es k Hes) as (R1 & R2 & R3 & R4); auto.
    { intros es' Hin ns Hm. eapply HA; eauto. now constructor. }
    assert (V : visible l = l) by (apply visible_all; eapply HA; [constructor|eauto]).
    split; auto. split; auto. split.
    + rewrite R3, proper_cons, proper_struct. split; [intros HQ; split; auto; constructor|tauto].
    + apply re_private; auto; [constructor; constructor|]. apply R4. rewrite V. apply incl_refl.
Qed.

(** ** What was written is read *)

Lemma bytes_inv : forall s, HasTypes ds (GIdent (str "byte")) (map VUint s) -> Forall isByte s.
Proof.
  intros s H. destruct (bytes_only X rs ds HD _ _ H eq_refl) as (s' & E1 & E2). apply map_VUint in E1. now subst.
Qed.

Lemma plain_name : forall n doc e, PlainType (GIdent n) -> In (GType doc n e) ds -> PlainType e.
Proof.
  intros n doc e (e0 & c & k & HPl & HA & HT) HI. destruct HPl as [t Ht|w Hw Hn|es Hes].
  - apply base_is in HT; auto. destruct HT as [[_ HT]|[[_ HT]|[[_ HT]|[[_ HT]|[_ HT]]]]]; try discriminate HT; injection HT as ->; base.
  - apply name_is in HT as (m & HN & HT). injection HT as <-. destruct (follow X E K rs opt ds HD HP _ _ _ _ Hn HN HI) as (r & k' & A & B & C & D & G).
    inversion D as [c e' D'|es D'|w' D' D'']; subst; [|congruence|congruence]. exists (rBody r), (K (rName r)), k'. auto.
  - apply array_is in HT as (fs & HT & _). discriminate HT.
Qed.

Lemma plain_slice : forall e, PlainType (GSlice e) -> e = GIdent (str "byte").
Proof.
  intros e (e0 & c & k & HPl & HA & HT). destruct HPl as [t Ht|w Hw Hn|es Hes].
  - apply base_is in HT; auto. destruct HT as [[_ HT]|[[_ HT]|[[_ HT]|[[_ HT]|[_ HT]]]]]; try discriminate HT. now injection HT.
  - apply name_is in HT as (m & HN & HT). discriminate HT.
  - apply array_is in HT as (fs & HT & _). discriminate HT.
Qed.

Lemma enc_dec :
  (forall t v c, Enc ds E t v c -> PlainType t -> HasType ds t v -> Proper v -> Dec ds E t c v) /\
  (forall l cs, EncAll ds E l cs -> Forall (fun x => PlainType (lType x) /\ HasType ds (lType x) (lVal x)) l -> Forall (fun x => Proper (lVal x)) l -> DecAll ds E l cs).
Proof.
  apply (enc_ind ds E (fun t v c _ => PlainType t -> HasType ds t v -> Proper v -> Dec ds E t c v)
    (fun l cs _ => Forall (fun x => PlainType (lType x) /\ HasType ds (lType x) (lVal x)) l -> Forall (fun x => Proper (lVal x)) l -> DecAll ds E l cs)).
  1-4: intros z HPl HT HV; inversion HT; subst; try (constructor; assumption); base.
  - intros s HPl HT HV. inversion HV; subst. now constructor.
  - intros doc n e v c HI HC IH HPl HT HV. inversion HT as [| | | | |doc' n' e' v' HI' HT'| | |]; subst; try base. rewrite (once HI' HI) in HT'.
    apply (de_name ds E doc n e); auto. apply IH; auto. eapply plain_name; eauto.
  - intros e _ _ HV. inversion HV.
  - intros s HPl HT HV. inversion HT; subst. constructor. now apply bytes_inv.
  - intros e l cs N HC IH HPl HT HV. exfalso. apply N. now apply plain_slice.
  - intros fs vs l cs HA HL HC IH HPl HT HV. inversion HT; subst. inversion HV; subst.
    match goal with HF : HaveTypes ds fs vs |- _ => destruct (plain_struct fs vs l HPl HF HL) as (P1 & P2 & P3 & P4) end.
    eapply de_struct; eauto. apply IH; rewrite P1; [auto|now apply P3].
  - intros. constructor.
  - intros x l c cs HC IHc HL IHl H1 H2. inversion H1 as [|? ? [A1 A2] A3]; subst. inversion H2; subst. constructor; auto.
Qed.

(** ** What is read without null is proper *)

Lemma uints_proper' : forall s, ProperAll (map VUint s).
Proof. intros s. induction s; cbn [map]; constructor; auto. constructor. Qed.

Lemma dec_proper :
  (forall t c v, Dec ds E t c v -> Strict c -> PlainType t -> Proper v) /\
  (forall l cs, DecAll ds E l cs -> StrictAll cs -> Forall (fun x => PlainType (lType x) /\ HasType ds (lType x) (lVal x)) l -> Forall (fun x => Proper (lVal x)) l).
Proof.
  apply (dec_ind ds E (fun t c v _ => Strict c -> PlainType t -> Proper v)
    (fun l cs _ => StrictAll cs -> Forall (fun x => PlainType (lType x) /\ HasType ds (lType x) (lVal x)) l -> Forall (fun x => Proper (lVal x)) l)).
  1-4: intros; constructor.
  - intros s HU _ _. now constructor.
  - intros doc n e c v HI HC IH HS HPl. apply IH; auto. eapply plain_name; eauto.
  - intros e v _ HS. inversion HS.
  - intros s HB _ _. constructor. apply uints_proper'.
  - intros e l cs HC IH HS HPl. pose proof (plain_slice _ HPl). subst e. constructor.
    pose proof (proj2 dec_typed _ _ HC) as HT. apply leaf_list in HT. destruct (bytes_only X rs ds HD _ _ HT eq_refl) as (s & -> & _). apply uints_proper'.
  - intros fs vs l cs HA HL HC IH HR HS HPl. inversion HS; subst. constructor.
    assert (HF : HaveTypes ds fs vs) by (eapply rest_typed; eauto; exact (proj2 dec_typed _ _ HC)).
    destruct (plain_struct fs vs l HPl HF HL) as (P1 & P2 & P3 & P4). apply P3. rewrite <- P1. apply IH; auto. now rewrite P1.
  - intros. constructor.
  - intros x l c cs HC IHc HL IHl HS H1. inversion HS; subst. inversion H1 as [|? ? [A1 A2] A3]; subst. constructor; auto.
Qed.
End Proofs.

(** ** C96 *)

Section Documents.
Variables (X : Ext) (XG : GenExt) (E : bytes -> Prop) (K : bytes -> cls) (opt twice : bool) (pkg s : bytes) (d : doc) (ds : list gdecl) (r : rule) (n : bytes).

(** The situation of C82: [ds] are the types generated from the document [d], whose rules are of
    its fragment, and [n] is the type of the rule [r]. *)
Definition Generated : Prop := Accepted X XG twice pkg s d ds /\ FreshNames XG (rulesIn d) /\ ~ E (str "_") /\
  Forall (PlainRule XG E K (rulesIn d) opt) (rulesIn d) /\ In r (rulesIn d) /\ K (rName r) <> Grp /\ GoName XG (rName r) n.

Lemma generated_type : Generated -> Declares XG (rulesIn d) ds /\ PlainType XG E K (rulesIn d) opt (GIdent n).
Proof.
  intros (HA & HF & HE & HP & HI & HK & HN). split; [eapply accepted_declares; eauto|].
  exists (XAtom (AName (rName r))), (K (rName r)), 0%nat. split; [apply pl_name; auto; exists r; auto|]. split; [apply apart_name|]. cbn [tree treeAtom]. now constructor.
Qed.
End Documents.

(** What a value is written as is read, and gives that value. *)
Theorem C96_back : forall X XG E K opt twice pkg s d ds r n v x, Generated X XG E K opt twice pkg s d ds r n ->
  HasType ds (GIdent n) v -> Proper v -> Enc ds E (GIdent n) v x -> forall v', Dec ds E (GIdent n) x v' <-> v' = v.
Proof.
  intros X XG E K opt twice pkg s d ds r n v x HG HT HV HC v'. destruct (generated_type _ _ _ _ _ _ _ _ _ _ _ _ HG) as [HD HPl].
  destruct HG as (_ & _ & HE & HP & _). assert (R : Dec ds E (GIdent n) x v) by (eapply (proj1 (enc_dec XG E K (rulesIn d) opt ds HD HP HE)); eauto).
  split; [|intros ->; exact R]. intros H. eapply (proj1 (dec_fun XG E (rulesIn d) ds HD)); eauto.
Qed.

(** So different values are written as different data. *)
Theorem C96_distinct : forall X XG E K opt twice pkg s d ds r n v v' x, Generated X XG E K opt twice pkg s d ds r n ->
  HasType ds (GIdent n) v -> Proper v -> HasType ds (GIdent n) v' -> Proper v' -> Enc ds E (GIdent n) v x -> Enc ds E (GIdent n) v' x -> v = v'.
Proof.
  intros X XG E K opt twice pkg s d ds r n v v' x HG HT HV HT' HV' HC HC'. symmetry.
  apply (C96_back _ _ _ _ _ _ _ _ _ _ _ _ _ _ HG HT HV HC). now apply (C96_back _ _ _ _ _ _ _ _ _ _ _ _ _ _ HG HT' HV' HC').
Qed.

(** Without optional members, data that the rule describes and whose integers fit are read, and
    the value that this gives is written as these data. *)
Theorem C96_described : forall X XG E K twice pkg s d ds r n x, Generated X XG E K false twice pkg s d ds r n ->
  Describes d (rName r) x -> Fits x -> exists v, (forall v', Dec ds E (GIdent n) x v' <-> v' = v) /\ (forall y, Enc ds E (GIdent n) v y <-> y = x).
Proof.
  intros X XG E K twice pkg s d ds r n x HG HM HX. pose proof HG as (HA & HF & HE & HP & HI & HK & HN).
  destruct (C83_complete _ _ _ _ _ _ _ _ _ _ _ _ HA HF HE HP HI HK HN HM HX) as (v & V1 & V2 & V3). exists v. split; auto.
  eapply C96_back; eauto. now apply V3.
Qed.

(** Data without null and tags that are read are described, up to arrays of numbers in place of
    byte strings: they give a proper value, and what this is written as is described. *)
Theorem C96_only : forall X XG E K opt twice pkg s d ds r n x v, Generated X XG E K opt twice pkg s d ds r n ->
  Strict x -> Dec ds E (GIdent n) x v -> HasType ds (GIdent n) v /\ Proper v /\ exists y, Enc ds E (GIdent n) v y /\ Loose x y /\ Describes d (rName r) y.
Proof.
  intros X XG E K opt twice pkg s d ds r n x v HG HS HR. destruct (generated_type _ _ _ _ _ _ _ _ _ _ _ _ HG) as [HD HPl].
  destruct HG as (HA & HF & HE & HP & HI & HK & HN).
  assert (HT : HasType ds (GIdent n) v) by (eapply (proj1 (dec_typed E ds)); eauto).
  assert (HV : Proper v) by (eapply (proj1 (dec_proper XG E K (rulesIn d) opt ds HD HP HE)); eauto).
  split; auto. split; auto.
  destruct (C82_sound _ _ _ _ _ _ _ _ _ _ _ _ _ HA HF HE HP HI HK HN HT HV) as (y & Y1 & Y2). exists y. pose proof (proj2 (Y1 y) eq_refl) as HC.
  split; auto. split; auto. eapply (proj1 (dec_loose XG E (rulesIn d) ds HD)); eauto.
Qed.

(** The situation of the example of C82. *)
Example C96_ex : Generated X0 XGo exported K_good false false (str "main") (printDoc d_good) d_good (declsOf (printDoc d_good))
    (snd (hd (one "" (ty INT)) (dRules d_good))) (str "Shape") /\
  HasType (declsOf (printDoc d_good)) (GIdent (str "Shape")) v_good /\ Proper v_good /\
  Enc (declsOf (printDoc d_good)) exported (GIdent (str "Shape")) v_good x_good /\ Strict x_good /\
  Dec (declsOf (printDoc d_good)) exported (GIdent (str "Shape")) x_good v_good.
Proof.
  pose proof good_typed as [HT HV].
  assert (HG : Generated X0 XGo exported K_good false false (str "main") (printDoc d_good) d_good (declsOf (printDoc d_good))
    (snd (hd (one "" (ty INT)) (dRules d_good))) (str "Shape")).
  { split; [exact good_accepted|]. split; [exact good_fresh|]. split; [vm_compute; intros [_ H]; now apply H|]. split; [exact good_plain|].
    split; [now left|]. split; [discriminate|exact shape_name]. }
  split; [exact HG|]. split; [exact HT|]. split; [exact HV|]. split; [exact good_enc|]. split.
  - unfold x_good. repeat first [apply st_array|apply st_text|apply st_bool|apply st_bytes|apply st_int|apply sa_cons|apply sa_nil].
  - apply (C96_back _ _ _ _ _ _ _ _ _ _ _ _ _ _ HG HT HV good_enc). reflexivity.
Qed.

(** ** What the theorems leave out *)

(** [Admits d w P]: the document is accepted, and some data - with the property [P] - are read
    into the type generated from the rule [w] which does not describe them. *)
Definition Admits (d : doc) (w : bytes) (P : cbor -> Prop) : Prop :=
  exists ds n x v, Compiles (printDoc d) ds /\ GoName XGo w n /\ P x /\ Dec ds exported (GIdent n) x v /\ ~ Describes d w x.

(** [Rejects d w P]: some data that [w] describes are not read. *)
Definition Rejects (d : doc) (w : bytes) (P : cbor -> Prop) : Prop :=
  exists ds n x, Compiles (printDoc d) ds /\ GoName XGo w n /\ Describes d w x /\ P x /\ forall v, ~ Dec ds exported (GIdent n) x v.

(** a = int: null is read as 0. *)
Theorem C96_null_refuted : Admits d_int (str "a") (fun x => x = CNull).
Proof.
  exists (declsOf (printDoc d_int)), (str "A"), CNull, (VInt 0). split; [apply compiles_by; vm_compute; reflexivity|]. split; [exact a_name|]. split; [reflexivity|]. split.
  - reveal. apply de_null. eapply ze_name; [pick|]. apply ze_int.
  - intros H. therule H. inversion H; subst. match goal with H : In _ _ |- _ => simpl in H; intuition discriminate end.
Qed.

(** a = bytes: an array of numbers is read. *)
Theorem C96_bytes_refuted : Admits d_bytes (str "a") Strict.
Proof.
  exists (declsOf (printDoc d_bytes)), (str "A"), (CArray [CInt 255]), (VSlice (Some [VUint 255])). split; [apply compiles_by; vm_compute; reflexivity|].
  split; [exact a_name|]. split; [repeat constructor|]. split.
  - reveal. eapply de_name; [pick|]. apply de_slice. apply da_cons; [apply de_byte; inrange|apply da_nil].
  - intros H. therule H. inversion H; subst.
Qed.

(** point = [x: int, ? y: int]: data without y are refused. *)
Theorem C96_optional_refuted : Rejects d_opt (str "point") (fun x => Fits x /\ Strict x).
Proof.
  exists (declsOf (printDoc d_opt)), (str "Point"), (CArray [CInt 1]).
  split; [apply compiles_by; vm_compute; reflexivity|]. split; [exact (goName_ok (str "point") ltac:(discriminate))|]. split; [|split].
  - eapply mt_name; [now left|reflexivity|]. shape. apply mt_array. apply (me_cons _ _ _ _ _ [CInt 1] []).
    + apply ms_member, mt_int. inrange.
    + apply (me_cons _ _ _ _ _ [] []); [apply ms_none|apply me_nil].
  - split; [repeat first [apply ft_array|apply ft_int; inrange|apply fa_cons|apply fa_nil]|repeat constructor].
  - intros v H. revert H. reveal. intros H. inversion H as [| | | | |doc n e ? ? HI HR| | | |]; subst.
    destruct HI as [HI|[HI|[]]]; [|discriminate HI]. injection HI as <- <-. inversion HR as [| | | | | | | | |fs vs l cs _ HL HC _]; subst.
    inversion HL as [|? ? ? ? ? ? ? ? HX|? ? ? ? ? ? ? ? _ HL1| | |]; subst; [vm_compute in HX; destruct HX as [_ HX]; now apply HX|].
    inversion HL1 as [|? ? ? ? ? ? ? l1 _ HL2|? ? ? ? ? ? ? ? HX| | |]; subst; [|exfalso; apply HX; vm_compute; split; discriminate].
    inversion HL2 as [|? ? ? ? ? ? ? l2 _ HL3|? ? ? ? ? ? ? ? HX| | |]; subst; [|exfalso; apply HX; vm_compute; split; discriminate].
    inversion HL3; subst. vm_compute in HC. inversion HC as [|? ? ? ? _ HC']; subst. inversion HC'.
Qed.

(** a = int: an integer of CDDL that Go's int does not hold is refused. *)
Theorem C96_range_refuted : Rejects d_int (str "a") (fun x => x = CInt (2 ^ 63)).
Proof.
  exists (declsOf (printDoc d_int)), (str "A"), (CInt (2 ^ 63)).
  split; [apply compiles_by; vm_compute; reflexivity|]. split; [exact a_name|]. split; [|split; [reflexivity|]].
  - eapply mt_name; [now left|reflexivity|]. shape. apply mt_int. inrange.
  - intros v H. revert H. reveal. intros H. inversion H as [| | | | |doc n e ? ? HI HR| | | |]; subst.
    destruct HI as [HI|[HI|[]]]; [|discriminate HI]. injection HI as <- <-.
    inversion HR as [| | | | |? ? ? ? ? HJ _| | | |]; subst; [lia|destruct HJ as [HJ|[HJ|[]]]; discriminate HJ].
Qed.
