(** Properties C82 and C83: the data that values of generated types are written as, and the data
    the rules describe. *)
From Coq Require Import String.
From Verif Require Import Base Utf8 Token Strconv Ext Ast Env Parser Doc Props_Parser Codegen GoSpec Props_Codegen Props_GoFile JsonSpec Props_Json Cddl GoCbor.
Open Scope string_scope.
Open Scope list_scope.
Open Scope Z_scope.

(** ** Specification: the documents *)

(** Rules for scalars, for arrays and for groups. *)
Inductive cls : Type := Scalar | Arr | Grp.

Definition keyText (k : keyName) : bytes := match k with KName w => w | KNum _ v => fmtD v end.

Section Spec.
Variables (X : GenExt) (E : bytes -> Prop) (K : bytes -> cls) (rs : list rule) (opt : bool).

Definition Named (w : bytes) : Prop := exists r, In r rs /\ rName r = w.

(** The Go name of [w] is exported. *)
Definition Exported (w : bytes) : Prop := forall n, GoName X w n -> E n.

(** [Plain c e]: [e] is a type of class [c]: a base type, the name of a rule that is no group, or
    an array. The elements of an array or group are members, names of rules for scalars
    or groups and, if [opt], optional members. *)
Inductive Plain : cls -> expr -> Prop :=
| pl_base t : In t [BOOL; TSTR; TEXT; UINT; INT; BYTES] -> Plain Scalar (XAtom (AType t))
| pl_name w : K w <> Grp -> Named w -> Plain (K w) (XAtom (AName w))
| pl_array es : PlainElems es -> Plain Arr (XBracket BArray es)
with PlainElem : expr -> Prop :=
| pe_member k arrow c v tc : Exported (keyText k) -> Plain c v -> PlainElem (XMember k arrow v tc)
| pe_optional k arrow c v tc : opt = true -> Exported (keyText k) -> Plain c v -> PlainElem (XPrefix PreOpt (XMember k arrow v tc))
| pe_scalar w : K w = Scalar -> Named w -> Exported w -> PlainElem (XAtom (AName w))
| pe_group w : K w = Grp -> Named w -> PlainElem (XAtom (AName w))
with PlainElems : elems -> Prop :=
| pes_nil : PlainElems ENil
| pes_cons lead e comma r : PlainElem e -> PlainElems r -> PlainElems (ECons lead e comma r).

(** What a rule may say. *)
Inductive PlainBody : cls -> expr -> Prop :=
| pb_type c e : Plain c e -> PlainBody c e
| pb_group es : PlainElems es -> PlainBody Grp (XBracket BGroup es)
| pb_name w : K w = Grp -> Named w -> PlainBody Grp (XAtom (AName w)).

(** [Members e ns]: the Go names of the fields [e] stands for. *)
Inductive Members : expr -> list bytes -> Prop :=
| mb_member k arrow v tc n : GoName X (keyText k) n -> Members (XMember k arrow v tc) [n]
| mb_optional k arrow v tc n : GoName X (keyText k) n -> Members (XPrefix PreOpt (XMember k arrow v tc)) [n]
| mb_scalar w n : K w = Scalar -> GoName X w n -> Members (XAtom (AName w)) [n]
| mb_group w r ns : K w = Grp -> In r rs -> rName r = w -> Members (rBody r) ns -> Members (XAtom (AName w)) ns
| mb_elems es ns : MembersAll es ns -> Members (XBracket BGroup es) ns
with MembersAll : elems -> list bytes -> Prop :=
| ms_nil : MembersAll ENil []
| ms_cons lead e comma r ns ms : Members e ns -> MembersAll r ms -> MembersAll (ECons lead e comma r) (ns ++ ms).

(** The arrays within a type. *)
Inductive ArrayIn : expr -> elems -> Prop :=
| ai_here es : ArrayIn (XBracket BArray es) es
| ai_elems b es es' : ArrayAmong es es' -> ArrayIn (XBracket b es) es'
| ai_member k arrow v tc es : ArrayIn v es -> ArrayIn (XMember k arrow v tc) es
| ai_prefix p v es : ArrayIn v es -> ArrayIn (XPrefix p v) es
with ArrayAmong : elems -> elems -> Prop :=
| aa_here lead e comma r es : ArrayIn e es -> ArrayAmong (ECons lead e comma r) es
| aa_later lead e comma r es : ArrayAmong r es -> ArrayAmong (ECons lead e comma r) es.

(** No two members of an array, counting those of the groups it names, have one Go name. *)
Definition Apart (e : expr) : Prop := forall es ns, ArrayIn e es -> MembersAll es ns -> NoDup ns.

Definition PlainRule (r : rule) : Prop := PlainBody (K (rName r)) (rBody r) /\ Apart (rBody r).
End Spec.

Scheme Plain_ind2 := Induction for Plain Sort Prop
  with PlainElem_ind2 := Induction for PlainElem Sort Prop
  with PlainElems_ind2 := Induction for PlainElems Sort Prop.
Combined Scheme plain_ind from Plain_ind2, PlainElem_ind2, PlainElems_ind2.

(** Items whose integers are in the range of Go's int. *)
Inductive Fits : cbor -> Prop :=
| ft_int z : - 2 ^ 63 <= z < 2 ^ 63 -> Fits (CInt z)
| ft_bytes s : Fits (CBytes s)
| ft_text s : Fits (CText s)
| ft_array l : FitsAll l -> Fits (CArray l)
| ft_bool b : Fits (CBool b)
with FitsAll : list cbor -> Prop :=
| fa_nil : FitsAll []
| fa_cons x l : Fits x -> FitsAll l -> FitsAll (x :: l).

(** ** Lemmas on fields *)

Lemma rivals_own : forall l x, In x l -> NoDup (map lName l) -> rivals l x = [x].
Proof.
  intros l x H HN. induction l as [|y l IH]; [destruct H|]. cbn [map] in HN. inversion HN as [|? ? N1 N2]; subst.
  destruct H as [->|H].
  - unfold rivals. cbn [filter]. rewrite (proj2 (EnvProofs.beq_iff _ _) eq_refl), Nat.leb_refl. cbn [andb]. f_equal.
    rewrite <- (app_nil_r l) at 1. clear IH HN N2. induction l as [|y l IH]; auto. cbn [app filter].
    destruct (beq (lName y) (lName x)) eqn:B; [apply EnvProofs.beq_iff in B; exfalso; apply N1; rewrite <- B; now left|].
    cbn [andb]. apply IH. intros HI. apply N1. now right.
  - unfold rivals. cbn [filter]. destruct (beq (lName y) (lName x)) eqn:B; [|cbn [andb]; apply IH; auto].
    apply EnvProofs.beq_iff in B. exfalso. apply N1. rewrite B. apply in_map. exact H.
Qed.

Lemma visible_all : forall l, NoDup (map lName l) -> visible l = l.
Proof.
  intros l H. unfold visible.
  assert (G : forall m, incl m l -> filter (fun x => (length (rivals l x) =? 1)%nat) m = m).
  { induction m as [|x m IH]; intros HI; auto. cbn [filter]. rewrite rivals_own; auto; [|apply HI; now left]. cbn [length Nat.eqb]. f_equal.
    apply IH. intros y Hy. apply HI. now right. }
  apply G. apply incl_refl.
Qed.

Lemma encAll_app : forall ds E l l' cs cs', EncAll ds E l cs -> EncAll ds E l' cs' -> EncAll ds E (l ++ l') (cs ++ cs').
Proof. intros ds E l l' cs cs' H1 H2. induction H1; cbn [app]; auto. now constructor. Qed.

(** ** The types of plain expressions *)

Lemma base_is : forall X t e k, In t [BOOL; TSTR; TEXT; UINT; INT; BYTES] -> TypeIs X (treeType t) e k ->
  (t = BOOL /\ e = GIdent (str "bool")) \/ (In t [TSTR; TEXT] /\ e = GIdent (str "string")) \/
  (t = UINT /\ e = GIdent (str "uint")) \/ (t = INT /\ e = GIdent (str "int")) \/ (t = BYTES /\ e = GSlice (GIdent (str "byte"))).
Proof.
  intros X t e k HI H. assert (K : exists n, treeType t = n) by eauto. destruct K as [n K]. rewrite K in H.
  simpl in HI. destruct HI as [<-|[<-|[<-|[<-|[<-|[<-|[]]]]]]]; cbn [treeType] in K; subst n; inversion H as [n k' e' E1 E2| | | | | | | | | |]; subst;
    simpl in E1; injection E1 as <-; simpl in E2; injection E2 as <-; simpl; tauto.
Qed.

Lemma name_is : forall X w e k, TypeIs X (tree (XAtom (AName w))) e k -> exists n, GoName X w n /\ e = GIdent n.
Proof.
  intros X w e k H. cbn [tree treeAtom] in H. inversion H as [n k' e' E1 E2| | | | | |i m HN| | | |]; subst; [simpl in E1; injection E1 as <-; discriminate E2|].
  eauto.
Qed.

Lemma array_is : forall X es e k, TypeIs X (tree (XBracket BArray es)) e k -> exists fs, e = GStruct (TOARRAY :: fs) /\ EntriesAre X (trees es) fs k.
Proof.
  intros X es e k H. cbn [tree treeBracket] in H. inversion H as [n k' e' E1 E2| | | | | | | |p' l' fs k' HE| |]; subst; [simpl in E1; injection E1 as <-; discriminate E2|].
  eauto.
Qed.

Lemma group_is : forall X es e k, TypeIs X (tree (XBracket BGroup es)) e k -> exists fs, e = GStruct fs /\ EntriesAre X (trees es) fs k.
Proof.
  intros X es e k H. cbn [tree treeBracket] in H. inversion H as [n k' e' E1 E2| | | | | | |p' l' fs k' HE| | |]; subst; [simpl in E1; injection E1 as <-; discriminate E2|].
  eauto.
Qed.

Lemma key_text : forall k, iName (treeKey k) = keyText k.
Proof. intros [w|w v]; reflexivity. Qed.

(** ** Files *)

(** [Declares X rs ds]: the types declared in [ds] are those of the rules [rs], which have
    different Go names, none of them reserved. *)
Record Declares (X : GenExt) (rs : list rule) (ds : list gdecl) : Prop := mkDeclares {
  dc_rule : forall r, In r rs -> exists doc n e k, GoName X (rName r) n /\ TypeIs X (tree (rBody r)) e k /\ In (GType doc n e) ds;
  dc_decl : forall doc n e, In (GType doc n e) ds -> exists r k, In r rs /\ GoName X (rName r) n /\ TypeIs X (tree (rBody r)) e k;
  dc_names : forall r r' n, In r rs -> In r' rs -> GoName X (rName r) n -> GoName X (rName r') n -> rName r = rName r';
  dc_once : forall doc n e doc' e', In (GType doc n e) ds -> In (GType doc' n e') ds -> e = e';
  dc_fresh : forall doc n e, In (GType doc n e) ds -> ~ In n reserved
}.

Section Proofs.
Variables (X : GenExt) (E : bytes -> Prop) (K : bytes -> cls) (rs : list rule) (opt : bool) (ds : list gdecl).
Hypothesis (HD : Declares X rs ds) (HP : Forall (PlainRule X E K rs opt) rs) (HE : ~ E (str "_")).

Lemma no_base : forall r n, In r rs -> GoName X (rName r) n -> ~ In n reserved.
Proof.
  intros r n HI HN. destruct (dc_rule _ _ _ HD r HI) as (doc & m & e & k & A & _ & B). pose proof (C36_names_unique _ _ _ _ HN A) as ->.
  eapply dc_fresh; eauto.
Qed.

Lemma named_no_base : forall w n, Named rs w -> GoName X w n -> ~ In n reserved.
Proof. intros w n (r & HI & <-) HN. eapply no_base; eauto. Qed.

(** The declaration a name leads to. *)
Lemma follow : forall w n doc e, Named rs w -> GoName X w n -> In (GType doc n e) ds -> exists r k, In r rs /\ rName r = w /\
  TypeIs X (tree (rBody r)) e k /\ PlainBody X E K rs opt (K w) (rBody r) /\ Apart X K rs (rBody r).
Proof.
  intros w n doc e (r & HI & <-) HN Hd. destruct (dc_decl _ _ _ HD _ _ _ Hd) as (r' & k & A & B & C).
  pose proof (dc_names _ _ _ HD _ _ _ HI A HN B) as Eq. exists r', k. rewrite Forall_forall in HP. destruct (HP r' A) as [P1 P2].
  rewrite Eq. auto.
Qed.

Lemma scalar_no_struct : forall t fs, IsStruct ds t fs -> forall e k, Plain X E K rs opt Scalar e -> TypeIs X (tree e) t k -> False.
Proof.
  intros t fs H. induction H as [fs|doc n e0 fs HI H IH]; intros e k HPl HT.
  - remember Scalar as c eqn:Ec. destruct HPl as [t Ht|w Hw Hn|es Hes]; [| |discriminate Ec].
    + apply base_is in HT; auto. destruct HT as [[_ HT]|[[_ HT]|[[_ HT]|[[_ HT]|[_ HT]]]]]; discriminate HT.
    + apply name_is in HT as (n & _ & HT). discriminate HT.
  - remember Scalar as c eqn:Ec. destruct HPl as [t Ht|w Hw Hn|es Hes]; [| |discriminate Ec].
    + apply base_is in HT; auto. pose proof (dc_fresh _ _ _ HD _ _ _ HI) as HF.
      destruct HT as [[_ HT]|[[_ HT]|[[_ HT]|[[_ HT]|[_ HT]]]]]; try discriminate HT; injection HT as ->; apply HF; apply in_or_app; left; simpl; tauto.
    + apply name_is in HT as (m & HN & HT). injection HT as ->. destruct (follow _ _ _ _ Hn HN HI) as (r & k' & A & B & C & D & _).
      rewrite Ec in D. inversion D as [c e' D'| |]; subst. eapply IH; [rewrite Ec; eassumption|eassumption].
Qed.

(** The statement for values of types, and for the structs of groups. *)
Definition TypeOk (t : gexpr) (v : gval) : Prop := Proper v ->
  (forall e c k, Plain X E K rs opt c e -> Apart X K rs e -> TypeIs X (tree e) t k -> exists x, Enc ds E t v x /\ MType rs e x) /\
  (forall e k, PlainBody X E K rs opt Grp e -> Apart X K rs e -> TypeIs X (tree e) t k -> exists gs us, IsStruct ds t gs /\ v = VStruct us /\
     forall d, exists l xs, Leaves ds E d gs us l /\ Members X K rs e (map lName l) /\ EncAll ds E l xs /\ MSeq rs e xs).

Definition FieldsOk (fs : list gfield) (vs : list gval) : Prop := ProperAll vs ->
  forall es k, PlainElems X E K rs opt es -> (forall es', ArrayAmong es es' -> forall ns, MembersAll X K rs es' ns -> NoDup ns) ->
  EntriesAre X (trees es) fs k \/ (exists fs', fs = TOARRAY :: fs' /\ EntriesAre X (trees es) fs' k) ->
  forall d, exists l xs, Leaves ds E d fs vs l /\ MembersAll X K rs es (map lName l) /\ EncAll ds E l xs /\ MElems rs es xs.

Lemma plain_not_grp : forall c e, Plain X E K rs opt c e -> c <> Grp.
Proof. intros c e H. destruct H; auto; discriminate. Qed.

Lemma body_cases : forall e, PlainBody X E K rs opt Grp e -> (exists es, e = XBracket BGroup es /\ PlainElems X E K rs opt es) \/ (exists w, e = XAtom (AName w) /\ K w = Grp /\ Named rs w).
Proof.
  intros e H. inversion H as [c e' H'|es H'|w H' H'']; subst; eauto 6. exfalso. eapply plain_not_grp; eauto.
Qed.

(** Base types: no plain expression but the base type itself is generated as [GIdent n]. *)
Lemma from_base : forall e c k n, Plain X E K rs opt c e -> TypeIs X (tree e) (GIdent n) k -> In n universeTypes ->
  exists t, e = XAtom (AType t) /\ In t [BOOL; TSTR; TEXT; UINT; INT; BYTES] /\ TypeIs X (treeType t) (GIdent n) k.
Proof.
  intros e c k n HPl HT HU. destruct HPl as [t Ht|w Hw Hn|es Hes].
  - exists t. auto.
  - exfalso. apply name_is in HT as (m & HN & HT). injection HT as <-. eapply named_no_base; eauto. apply in_or_app. now left.
  - apply array_is in HT as (fs & HT & _). discriminate HT.
Qed.

Lemma grp_no_base : forall e k n, PlainBody X E K rs opt Grp e -> TypeIs X (tree e) (GIdent n) k -> In n universeTypes -> False.
Proof.
  intros e k n H HT HU. destruct (body_cases e H) as [(es & -> & _)|(w & -> & _ & Hn)].
  - apply group_is in HT as (fs & HT & _). discriminate HT.
  - apply name_is in HT as (m & HN & HT). injection HT as <-. eapply named_no_base; eauto. apply in_or_app. now left.
Qed.

Lemma base_ok : forall n v, In n universeTypes ->
  (forall t k, In t [BOOL; TSTR; TEXT; UINT; INT; BYTES] -> TypeIs X (treeType t) (GIdent n) k -> Proper v -> exists x, Enc ds E (GIdent n) v x /\ MType rs (XAtom (AType t)) x) ->
  TypeOk (GIdent n) v.
Proof.
  intros n v HU H HV. split.
  - intros e c k HPl _ HT. destruct (from_base e c k n HPl HT HU) as (t & -> & Ht & HT'). eauto.
  - intros e k HB _ HT. exfalso. eapply grp_no_base; eauto.
Qed.

Lemma bytes_only : forall n l, HasTypes ds n l -> n = GIdent (str "byte") -> exists s, l = map VUint s /\ Forall isByte s.
Proof.
  intros n l H. induction H as [e|e v l H1 H2 IH]; intros ->; [exists []; auto|]. destruct (IH eq_refl) as (s & -> & Hs).
  inversion H1 as [| |z Hz| | |doc m e' v' HI HT| | |]; subst; try discriminate.
  - exists (z :: s). split; auto.
  - exfalso. eapply (dc_fresh _ _ _ HD); eauto. apply in_or_app. left. simpl. tauto.
Qed.

Lemma has_type_ok :
  (forall t v, HasType ds t v -> TypeOk t v) /\ (forall t l, HasTypes ds t l -> True) /\ (forall fs vs, HaveTypes ds fs vs -> FieldsOk fs vs).
Proof.
  apply (hasType_ind ds (fun t v _ => TypeOk t v) (fun t l _ => True) (fun fs vs _ => FieldsOk fs vs)); auto.
  - intros z Hz. apply base_ok; [simpl; tauto|]. intros t k Ht HT _. apply base_is in HT; auto.
    destruct HT as [[_ HT]|[[_ HT]|[[_ HT]|[[-> _]|[_ HT]]]]]; try discriminate HT. exists (CInt z). split; constructor. lia.
  - intros z Hz. apply base_ok; [simpl; tauto|]. intros t k Ht HT _. apply base_is in HT; auto.
    destruct HT as [[_ HT]|[[_ HT]|[[-> _]|[[_ HT]|[_ HT]]]]]; try discriminate HT. exists (CInt z). split; constructor. lia.
  - intros z Hz. apply base_ok; [simpl; tauto|]. intros t k Ht HT _. apply base_is in HT; auto.
    destruct HT as [[_ HT]|[[_ HT]|[[_ HT]|[[_ HT]|[_ HT]]]]]; discriminate HT.
  - intros b. apply base_ok; [simpl; tauto|]. intros t k Ht HT _. apply base_is in HT; auto.
    destruct HT as [[-> _]|[[_ HT]|[[_ HT]|[[_ HT]|[_ HT]]]]]; try discriminate HT. exists (CBool b). split; constructor.
  - intros s Hs. apply base_ok; [simpl; tauto|]. intros t k Ht HT HV. apply base_is in HT; auto.
    destruct HT as [[_ HT]|[[Hin _]|[[_ HT]|[[_ HT]|[_ HT]]]]]; try discriminate HT. exists (CText s). inversion HV; subst. split; constructor; auto.
  - (* names *) intros doc n e0 v HI HT0 IH HV. specialize (IH HV) as [IH1 IH2]. pose proof (dc_fresh _ _ _ HD _ _ _ HI) as HF. split.
    + intros e c k HPl HA HT. destruct HPl as [t Ht|w Hw Hn|es Hes].
      * apply base_is in HT; auto. exfalso.
        destruct HT as [[_ HT]|[[_ HT]|[[_ HT]|[[_ HT]|[_ HT]]]]]; try discriminate HT; injection HT as ->; apply HF; apply in_or_app; left; simpl; tauto.
      * apply name_is in HT as (m & HN & HT). injection HT as <-. destruct (follow _ _ _ _ Hn HN HI) as (r & k' & A & B & C & D & G).
        inversion D as [c e' D'|es D'|w' D' D'']; subst; [|congruence|congruence].
        destruct (IH1 (rBody r) _ k' D' G C) as (x & X1 & X2). exists x. split; [econstructor; eauto|]. eapply mt_name; eauto.
      * apply array_is in HT as (fs & HT & _). discriminate HT.
    + intros e k HB HA HT. destruct (body_cases e HB) as [(es & -> & _)|(w & -> & Hw & Hn)].
      * apply group_is in HT as (fs & HT & _). discriminate HT.
      * apply name_is in HT as (m & HN & HT). injection HT as <-. destruct (follow _ _ _ _ Hn HN HI) as (r & k' & A & B & C & D & G).
        rewrite Hw in D. destruct (IH2 (rBody r) k' D G C) as (gs & us & S1 & S2 & S3). exists gs, us. split; [econstructor; eauto|]. split; auto.
        intros d. destruct (S3 d) as (l & xs & L1 & L2 & L3 & L4). exists l, xs. split; auto. split; [eapply mb_group; eauto|]. split; auto.
        eapply ms_name; eauto.
  - (* nil slices *) intros e HV. inversion HV.
  - (* slices *) intros e l Hl _ HV. split.
    + intros e' c k HPl HA HT. destruct HPl as [t Ht|w Hw Hn|es Hes].
      * apply base_is in HT; auto. destruct HT as [[_ HT]|[[_ HT]|[[_ HT]|[[_ HT]|[-> HT]]]]]; try discriminate HT. injection HT as ->.
        destruct (bytes_only _ _ Hl eq_refl) as (s & -> & Hs). exists (CBytes s). split; [constructor|]. constructor; simpl; auto.
      * apply name_is in HT as (m & HN & HT). discriminate HT.
      * apply array_is in HT as (fs & HT & _). discriminate HT.
    + intros e' k HB HA HT. exfalso. destruct (body_cases e' HB) as [(es & -> & _)|(w & -> & Hw & Hn)].
      * apply group_is in HT as (fs & HT & _). discriminate HT.
      * apply name_is in HT as (m & HN & HT). discriminate HT.
  - (* structs *) intros fs vs HF IH HV. inversion HV as [| | | | |l HVs]; subst. split.
    + intros e c k HPl HA HT. destruct HPl as [t Ht|w Hw Hn|es Hes].
      * apply base_is in HT; auto. destruct HT as [[_ HT]|[[_ HT]|[[_ HT]|[[_ HT]|[_ HT]]]]]; discriminate HT.
      * apply name_is in HT as (m & HN & HT). discriminate HT.
      * apply array_is in HT as (fs' & HT & HEn). injection HT as ->.
        destruct (IH HVs es k Hes) with (d := 0%nat) as (l & xs & L1 & L2 & L3 & L4); [intros es' Hin ns Hm; eapply HA; eauto; now constructor|eauto|].
        exists (CArray xs). split; [|now constructor]. apply (en_struct ds E _ _ l); auto.
        -- exists (GStruct []). now left.
        -- rewrite visible_all; auto. eapply HA; [constructor|eauto].
    + intros e k HB HA HT. destruct (body_cases e HB) as [(es & -> & Hes)|(w & -> & Hw & Hn)].
      * apply group_is in HT as (fs' & HT & HEn). injection HT as <-. exists fs, vs. split; [constructor|]. split; auto. intros d.
        destruct (IH HVs es k Hes) with (d := d) as (l & xs & L1 & L2 & L3 & L4); auto.
        { intros es' Hin ns Hm. eapply HA; eauto. now constructor. }
        exists l, xs. split; auto. split; [now constructor|]. split; auto. now constructor.
      * apply name_is in HT as (m & HN & HT). discriminate HT.
  - (* no fields *) intros _ es k Hes _ HEn d. destruct HEn as [HEn|(fs' & HEn & _)]; [|discriminate HEn].
    destruct es as [|lead e comma r]; [|cbn [trees] in HEn; inversion HEn]. exists [], []. repeat split; constructor.
  - (* a field *) intros ns e tag fs v vs N HTe IHe HFs IHs HVs es k Hes HA HEn d. inversion HVs as [|v' vs' HV HVs']; subst.
    destruct HEn as [HEn|(fs' & HEn & HEn')].
    2:{ injection HEn as -> -> -> ->. destruct (IHs HVs' es k Hes HA (or_introl HEn') d) as (l & xs & L1 & L2 & L3 & L4).
        exists l, xs. split; auto. apply lv_private; auto. }
    destruct es as [|lead x comma r]; [cbn [trees] in HEn; inversion HEn|]. cbn [trees] in HEn.
    inversion HEn as [|n l f fs' k1 k2 HEn1 HEn2]; subst. inversion Hes as [|lead' x' comma' r' Hx Hr]; subst.
    destruct (IHs HVs' r k2 Hr) with (d := d) as (l & xs & L1 & L2 & L3 & L4); auto.
    { intros es' Hin. apply HA. now constructor. }
    specialize (IHe HV) as [IH1 IH2].
    assert (HAx : Apart X K rs x) by (intros es' ns' Hin; apply HA; now constructor).
    destruct Hx as [kn arrow c u tc Hex Hu|kn arrow c u tc Hopt Hex Hu|w Hw Hn Hex|w Hw Hn]; cbn [tree treePrefix treeAtom] in HEn1; inversion HEn1; subst.
    + assert (HAu : Apart X K rs u) by (intros es' ns' Hin; apply HAx; now constructor). rewrite key_text in *.
      destruct (IH1 u c k1 Hu HAu) as (y & Y1 & Y2); auto. exists (mkLeaf w d e v :: l), (y :: xs). repeat split.
      * constructor; auto.
      * change (map lName (mkLeaf w d e v :: l)) with ([w] ++ map lName l). constructor; auto. now constructor.
      * constructor; auto.
      * change (y :: xs) with ([y] ++ xs). constructor; auto. now constructor.
    + assert (HAu : Apart X K rs u) by (intros es' ns' Hin; apply HAx; constructor; now constructor). rewrite key_text in *.
      destruct (IH1 u c k1 Hu HAu) as (y & Y1 & Y2); auto. exists (mkLeaf w d e v :: l), (y :: xs). repeat split.
      * constructor; auto.
      * change (map lName (mkLeaf w d e v :: l)) with ([w] ++ map lName l). constructor; auto. now constructor.
      * constructor; auto.
      * change (y :: xs) with ([y] ++ xs). constructor; auto. apply ms_one. now constructor.
    + match goal with H : GoName X _ w0 |- _ => cbn [iName] in H; rename H into HW end.
      destruct (IH1 (XAtom (AName w)) (K w) 0%nat) as (y & Y1 & Y2); auto; [apply pl_name; auto; congruence|cbn [tree treeAtom]; now constructor|].
      exists (mkLeaf w0 d (GIdent w0) v :: l), (y :: xs). repeat split.
      * apply lv_other; auto. intros gs HS. apply (scalar_no_struct _ _ HS (XAtom (AName w)) 0%nat); [|cbn [tree treeAtom]; now constructor].
        rewrite <- Hw. apply pl_name; auto. congruence.
      * change (map lName (mkLeaf w0 d (GIdent w0) v :: l)) with ([w0] ++ map lName l). constructor; auto. now constructor.
      * constructor; auto.
      * change (y :: xs) with ([y] ++ xs). constructor; auto. now constructor.
    + match goal with H : GoName X _ w0 |- _ => cbn [iName] in H; rename H into HW end.
      destruct (IH2 (XAtom (AName w)) 0%nat) as (gs & us & S1 & S2 & S3); [now constructor|auto|cbn [tree treeAtom]; now constructor|]. subst v.
      destruct (S3 (S d)) as (l' & xs' & M1 & M2 & M3 & M4). exists (l' ++ l), (xs' ++ xs). repeat split.
      * eapply lv_embedded; eauto.
      * rewrite map_app. now constructor.
      * now apply encAll_app.
      * now constructor.
Qed.

(** ** One encoding *)

Lemma isStruct_fun : forall t fs, IsStruct ds t fs -> forall gs, IsStruct ds t gs -> fs = gs.
Proof.
  intros t fs H. induction H as [fs|doc n e fs HI H IH]; intros gs HG; inversion HG; subst; auto. apply IH.
  match goal with H1 : In (GType _ n ?e') ds |- _ => rewrite (dc_once _ _ _ HD _ _ _ _ _ HI H1) end. assumption.
Qed.

Lemma leaves_fun : forall d fs vs l, Leaves ds E d fs vs l -> forall l', Leaves ds E d fs vs l' -> l = l'.
Proof.
  intros d fs vs l H. induction H; intros m HM; inversion HM; subst; try contradiction; try (f_equal; auto; fail); auto.
  - match goal with H1 : IsStruct ds (GIdent n) gs, H2 : IsStruct ds (GIdent n) ?gs' |- _ => pose proof (isStruct_fun _ _ H1 _ H2); subst end.
    f_equal; auto.
  - exfalso. match goal with H1 : forall gs, ~ IsStruct ds (GIdent n) gs, H2 : IsStruct ds (GIdent n) ?gs' |- _ => exact (H1 _ H2) end.
  - exfalso. match goal with H1 : forall gs, ~ IsStruct ds (GIdent n) gs, H2 : IsStruct ds (GIdent n) ?gs' |- _ => exact (H1 _ H2) end.
  - exfalso. match goal with H1 : forall gs, ~ IsStruct ds (GIdent n) gs, H2 : IsStruct ds (GIdent n) ?gs' |- _ => exact (H1 _ H2) end.
  - exfalso. match goal with H1 : forall gs, ~ IsStruct ds (GIdent n) gs, H2 : IsStruct ds (GIdent n) ?gs' |- _ => exact (H1 _ H2) end.
Qed.

Lemma declared_no_base : forall doc n e, In (GType doc n e) ds -> In n universeTypes -> False.
Proof. intros doc n e H HU. eapply (dc_fresh _ _ _ HD); eauto. apply in_or_app. now left. Qed.

Lemma map_VUint : forall a b, map VUint a = map VUint b -> a = b.
Proof. induction a as [|x a IH]; intros [|y b] H; try discriminate H; auto. injection H as -> H. f_equal; auto. Qed.

Lemma enc_fun :
  (forall t v c, Enc ds E t v c -> forall c', Enc ds E t v c' -> c = c') /\
  (forall l cs, EncAll ds E l cs -> forall cs', EncAll ds E l cs' -> cs = cs').
Proof.
  apply (enc_ind ds E (fun t v c _ => forall c', Enc ds E t v c' -> c = c') (fun l cs _ => forall cs', EncAll ds E l cs' -> cs = cs')).
  1-5: intros; match goal with H : Enc _ _ _ _ _ |- _ => inversion H; subst; auto end; exfalso; eapply declared_no_base; eauto; simpl; tauto.
  - intros doc n e v c HI HC IH c' HC'. inversion HC'; subst; try (exfalso; eapply declared_no_base; eauto; simpl; tauto).
    apply IH. match goal with H1 : In (GType _ n ?e') ds |- _ => rewrite (dc_once _ _ _ HD _ _ _ _ _ HI H1) end. assumption.
  - intros e c' H. inversion H; subst. auto.
  - intros s c' H. inversion H as [| | | | | | |s' E1|e l cs N E1|]; subst; [f_equal; symmetry; now apply map_VUint|contradiction].
  - intros e l cs N HC IH c' H. inversion H; subst; [exfalso; apply N; reflexivity|]. f_equal. auto.
  - intros fs vs l cs HA HL HC IH c' H. inversion H; subst. f_equal. apply IH.
    match goal with H1 : Leaves ds E 0 fs vs ?l' |- _ => rewrite (leaves_fun _ _ _ _ HL _ H1) end. assumption.
  - intros cs' H. inversion H. auto.
  - intros x l c cs HC IHc HL IHl cs' H. inversion H; subst. f_equal; auto.
Qed.

(** ** Every described item is the encoding of a value *)

Definition TypeC (e : expr) (x : cbor) : Prop := forall c t k, Plain X E K rs opt c e -> Apart X K rs e -> TypeIs X (tree e) t k ->
  Fits x -> exists v, HasType ds t v /\ Proper v /\ Enc ds E t v x.

Definition GroupC (e : expr) (xs : list cbor) : Prop := forall t k, PlainBody X E K rs opt Grp e -> Apart X K rs e -> TypeIs X (tree e) t k ->
  FitsAll xs -> exists gs us, IsStruct ds t gs /\ HasType ds t (VStruct us) /\ ProperAll us /\
    forall d, exists l, Leaves ds E d gs us l /\ Members X K rs e (map lName l) /\ EncAll ds E l xs.

Definition ElemC (e : expr) (xs : list cbor) : Prop := forall ns g tag k, PlainElem X E K rs opt e -> Apart X K rs e -> EntryIs X (tree e) (ns, g, tag) k ->
  FitsAll xs -> exists v, (length ns <= 1)%nat /\ HasType ds g v /\ Proper v /\
    forall d fs vs l, Leaves ds E d fs vs l -> exists l', Leaves ds E d ((ns, g, tag) :: fs) (v :: vs) (l' ++ l) /\ Members X K rs e (map lName l') /\ EncAll ds E l' xs.

Definition ElemsC (es : elems) (xs : list cbor) : Prop := forall fs k, PlainElems X E K rs opt es ->
  (forall es', ArrayAmong es es' -> forall ns, MembersAll X K rs es' ns -> NoDup ns) -> EntriesAre X (trees es) fs k ->
  FitsAll xs -> exists vs, HaveTypes ds fs vs /\ ProperAll vs /\
    forall d, exists l, Leaves ds E d fs vs l /\ MembersAll X K rs es (map lName l) /\ EncAll ds E l xs.

(** A name leads to the declaration of its rule. *)
Lemma lead_to : forall r n, In r rs -> GoName X (rName r) n -> exists doc e k, In (GType doc n e) ds /\ TypeIs X (tree (rBody r)) e k /\
  PlainBody X E K rs opt (K (rName r)) (rBody r) /\ Apart X K rs (rBody r).
Proof.
  intros r n HI HN. destruct (dc_rule _ _ _ HD r HI) as (doc & m & e & k & A & B & C). pose proof (C36_names_unique _ _ _ _ HN A) as ->.
  exists doc, e, k. rewrite Forall_forall in HP. destruct (HP r HI). auto.
Qed.

Lemma name_type : forall w r x, In r rs -> rName r = w -> TypeC (rBody r) x -> TypeC (XAtom (AName w)) x.
Proof.
  intros w r x HI <- IH c t k HPl HA HT HF. inversion HPl as [|w' Hw Hn|]; subst. apply name_is in HT as (n & HN & ->).
  destruct (lead_to r n HI HN) as (doc & e & k' & A & B & C & D). inversion C as [c e' C'|es C'|w' C' C'']; subst; [|congruence|congruence].
  destruct (IH _ e k' C' D B HF) as (v & V1 & V2 & V3). exists v. split; [econstructor; eauto|]. split; auto. econstructor; eauto.
Qed.

Lemma name_group : forall w r xs, In r rs -> rName r = w -> GroupC (rBody r) xs -> GroupC (XAtom (AName w)) xs.
Proof.
  intros w r xs HI <- IH t k HB HA HT HF. destruct (body_cases _ HB) as [(es & Eq & _)|(w' & Eq & Hw & Hn)]; [discriminate Eq|]. injection Eq as <-.
  apply name_is in HT as (n & HN & ->).
  destruct (lead_to r n HI HN) as (doc & e & k' & A & B & C & D). rewrite Hw in C.
  destruct (IH e k' C D B HF) as (gs & us & V1 & V2 & V3 & V4). exists gs, us. split; [econstructor; eauto|]. split; [econstructor; eauto|]. split; auto.
  intros d. destruct (V4 d) as (l & L1 & L2 & L3). exists l. split; auto. split; auto. eapply mb_group; eauto.
Qed.

Lemma apart_name : forall w, Apart X K rs (XAtom (AName w)).
Proof. intros w es ns H. inversion H. Qed.

Lemma name_elem : forall w xs, (K w = Scalar -> exists x, xs = [x] /\ TypeC (XAtom (AName w)) x) -> GroupC (XAtom (AName w)) xs -> ElemC (XAtom (AName w)) xs.
Proof.
  intros w xs H1 H2 ns g tag k HPl HA HEn HF. cbn [tree treeAtom] in HEn. inversion HEn as [| |i n HN|]; subst. cbn [iName] in HN.
  inversion HPl as [| |w' Hw Hn Hex|w' Hw Hn]; subst.
  - destruct (H1 Hw) as (x & -> & HC). inversion HF as [|y ys Hy Hys]; subst.
    destruct (HC (K w) (GIdent n) 0%nat) as (v & V1 & V2 & V3); auto; [apply pl_name; auto; congruence|cbn [tree treeAtom]; now constructor|].
    exists v. split; [simpl; lia|]. split; auto. split; auto. intros d fs vs l HL. exists [mkLeaf n d (GIdent n) v]. split; [|split].
    + apply lv_other; auto. intros gs HS. apply (scalar_no_struct _ _ HS (XAtom (AName w)) 0%nat); [|cbn [tree treeAtom]; now constructor].
      rewrite <- Hw. apply pl_name; auto. congruence.
    + now constructor.
    + constructor; auto. constructor.
  - destruct (H2 (GIdent n) 0%nat) as (gs & us & V1 & V2 & V3 & V4); auto; [now constructor|cbn [tree treeAtom]; now constructor|].
    exists (VStruct us). split; [simpl; lia|]. split; auto. split; [now constructor|]. intros d fs vs l HL.
    destruct (V4 (S d)) as (l' & L1 & L2 & L3). exists l'. split; auto. eapply lv_embedded; eauto.
Qed.

Lemma group_none : forall e xs, (forall es, e <> XBracket BGroup es) -> (forall w, e <> XAtom (AName w)) -> GroupC e xs.
Proof. intros e xs N1 N2 t k HB. exfalso. destruct (body_cases _ HB) as [(es & -> & _)|(w & -> & _)]; [eapply N1|eapply N2]; eauto. Qed.

Lemma elem_none : forall e xs, (forall w, e <> XAtom (AName w)) -> (forall k a v c, e <> XMember k a v c) -> (forall v, e <> XPrefix PreOpt v) -> ElemC e xs.
Proof. intros e xs N1 N2 N3 ns g tag k HB. exfalso. inversion HB; subst; [eapply N2|eapply N3|eapply N1|eapply N1]; eauto. Qed.

Ltac nope := try (intros; discriminate).

Lemma base_type_c : forall t x, (forall n, In n [BOOL; TSTR; TEXT; UINT; INT; BYTES] -> True) ->
  (forall g k, In t [BOOL; TSTR; TEXT; UINT; INT; BYTES] -> TypeIs X (treeType t) g k -> Fits x -> exists v, HasType ds g v /\ Proper v /\ Enc ds E g v x) ->
  TypeC (XAtom (AType t)) x /\ GroupC (XAtom (AType t)) [x] /\ ElemC (XAtom (AType t)) [x].
Proof.
  intros t x _ H. split; [|split; [apply group_none; nope|apply elem_none; nope]].
  intros c g k HPl HA HT HF. inversion HPl; subst. eauto.
Qed.

Lemma other_c : forall e x, (forall c, ~ Plain X E K rs opt c e) -> (forall es, e <> XBracket BGroup es) -> (forall w, e <> XAtom (AName w)) ->
  (forall k a v c, e <> XMember k a v c) -> (forall v, e <> XPrefix PreOpt v) -> TypeC e x /\ GroupC e [x] /\ ElemC e [x].
Proof.
  intros e x N1 N2 N3 N4 N5. split; [|split; [apply group_none; auto|apply elem_none; auto]]. intros c t k HPl. exfalso. eapply N1; eauto.
Qed.

Lemma uints_typed : forall s, Forall isByte s -> HasTypes ds (GIdent (str "byte")) (map VUint s).
Proof. intros s H. induction H; cbn [map]; constructor; auto. now constructor. Qed.
Lemma uints_proper : forall s, ProperAll (map VUint s).
Proof. intros s. induction s; cbn [map]; constructor; auto. constructor. Qed.

Lemma fits_app : forall l l', FitsAll (l ++ l') -> FitsAll l /\ FitsAll l'.
Proof. induction l as [|x l IH]; intros l' H; cbn [app] in *; [split; auto; constructor|]. inversion H; subst. destruct (IH l'); auto. split; auto. now constructor. Qed.

Lemma describes_ok : opt = false ->
  (forall e x, MType rs e x -> TypeC e x /\ GroupC e [x] /\ ElemC e [x]) /\
  (forall e xs, MSeq rs e xs -> (forall c, Plain X E K rs opt c e -> exists x, xs = [x] /\ TypeC e x) /\ GroupC e xs /\ ElemC e xs) /\
  (forall es xs, MElems rs es xs -> ElemsC es xs) /\ (forall e n xs, MTimes rs e n xs -> True).
Proof.
  intros HO. apply (match_ind rs (fun e x _ => TypeC e x /\ GroupC e [x] /\ ElemC e [x])
    (fun e xs _ => (forall c, Plain X E K rs opt c e -> exists x, xs = [x] /\ TypeC e x) /\ GroupC e xs /\ ElemC e xs)
    (fun es xs _ => ElemsC es xs) (fun e n xs _ => True)); auto.
  - intros z Hz. apply base_type_c; auto. intros g k HI HT HF. apply base_is in HT; auto.
    destruct HT as [[HT _]|[[HT _]|[[HT _]|[[_ ->]|[HT _]]]]]; try discriminate HT; [simpl in HT; destruct HT as [HT|[HT|[]]]; discriminate HT|].
    inversion HF; subst. exists (VInt z). repeat split; constructor; auto.
  - intros z Hz. apply base_type_c; auto. intros g k HI HT HF. apply base_is in HT; auto.
    destruct HT as [[HT _]|[[HT _]|[[_ ->]|[[HT _]|[HT _]]]]]; try discriminate HT; [simpl in HT; destruct HT as [HT|[HT|[]]]; discriminate HT|].
    exists (VUint z). repeat split; constructor; auto.
  - intros z Hz. apply base_type_c; auto. intros g k HI. exfalso. simpl in HI. repeat (destruct HI as [HI|HI]; [discriminate HI|]). destruct HI.
  - intros b. apply base_type_c; auto. intros g k HI HT HF. apply base_is in HT; auto.
    destruct HT as [[_ ->]|[[HT _]|[[HT _]|[[HT _]|[HT _]]]]]; try discriminate HT; [|simpl in HT; destruct HT as [HT|[HT|[]]]; discriminate HT].
    exists (VBool b). repeat split; constructor; auto.
  - intros t s Ht Hs. apply base_type_c; auto. intros g k HI HT HF. apply base_is in HT; auto.
    assert (g = GIdent (str "string")) as ->.
    { simpl in Ht. destruct Ht as [<-|[<-|[]]]; destruct HT as [[HT _]|[[_ ->]|[[HT _]|[[HT _]|[HT _]]]]]; try discriminate HT; auto. }
    exists (VString s). repeat split; constructor; auto. now apply Props_Json.utf8_bytes.
  - intros t s Ht Hs. apply base_type_c; auto. intros g k HI HT HF. apply base_is in HT; auto.
    assert (g = GSlice (GIdent (str "byte"))) as ->.
    { simpl in Ht. destruct Ht as [<-|[<-|[]]]; destruct HT as [[HT _]|[[HT _]|[[HT _]|[[HT _]|[_ ->]]]]]; try discriminate HT; auto;
        simpl in HT; destruct HT as [HT|[HT|[]]]; discriminate HT. }
    exists (VSlice (Some (map VUint s))). split; [|split]; constructor; [now apply uints_typed|apply uints_proper].
  - intros t Ht. apply base_type_c; auto. intros g k HI. exfalso. simpl in HI, Ht.
    destruct Ht as [<-|[<-|[]]]; repeat (destruct HI as [HI|HI]; [discriminate HI|]); destruct HI.
  - intros b. apply other_c; nope. intros c H. inversion H.
  - intros w v. apply other_c; nope. intros c H. inversion H.
  - intros w. apply other_c; nope. intros c H. inversion H.
  - intros w r v HI HN HM (IH1 & IH2 & IH3). assert (GroupC (XAtom (AName w)) [v]) by (eapply name_group; eauto).
    assert (TypeC (XAtom (AName w)) v) by (eapply name_type; eauto). split; auto. split; auto. apply name_elem; auto. intros _. eauto.
  - (* parentheses *) intros lead e v HM (IH1 & IH2 & IH3). split; [intros c t k HPl; inversion HPl|]. split; [|apply elem_none; nope].
    intros t k HB HA HT HF. destruct (body_cases _ HB) as [(es & Eq & Hes)|(w & Eq & _)]; [|discriminate Eq]. injection Eq as <-.
    apply group_is in HT as (fs & -> & HEn). cbn [trees] in HEn. inversion HEn as [|n l [[ns g] tag] fs' k1 k2 HEn1 HEn2]; subst. inversion HEn2; subst.
    inversion Hes as [|lead' e' comma' r' He Hr]; subst.
    destruct (IH3 ns g tag k1 He) as (v0 & V1 & V2 & V3 & V4); auto; [intros es' ns' Hin; apply HA; constructor; now constructor|].
    exists [(ns, g, tag)], [v0]. split; [constructor|]. split; [constructor; constructor; auto; constructor|]. split; [constructor; auto; constructor|].
    intros d. destruct (V4 d [] [] []) as (l' & L1 & L2 & L3); [constructor|]. rewrite app_nil_r in L1. exists l'. split; auto. split; auto.
    constructor. rewrite <- (app_nil_r (map lName l')). constructor; auto. constructor.
  - (* arrays *) intros es l HM IH. split; [|split; [apply group_none; nope|apply elem_none; nope]].
    intros c t k HPl HA HT HF. inversion HPl as [| |es' Hes]; subst. apply array_is in HT as (fs & -> & HEn). inversion HF; subst.
    destruct (IH fs k Hes) as (vs & V1 & V2 & V3); auto; [intros es' Hin ns Hm; eapply HA; eauto; now constructor|].
    destruct (V3 0%nat) as (l' & L1 & L2 & L3). exists (VStruct (VStruct [] :: vs)). split; [|split].
    + constructor. apply hv_cons; [simpl; lia|constructor; constructor|auto].
    + constructor. apply pa_cons; auto. constructor. constructor.
    + apply (en_struct ds E _ _ l'); [exists (GStruct []); now left|apply lv_private; auto|]. rewrite visible_all; auto. eapply HA; [constructor|eauto].
  - intros l g r v HM _. apply other_c; nope. intros c H. inversion H.
  - intros l g r v HM _. apply other_c; nope. intros c H. inversion H.
  - intros w n z Hz. apply other_c; nope. intros c H. inversion H.
  - intros t w n s H1 H2 H3. apply other_c; nope. intros c H. inversion H.
  - intros t w n s H1 H2 H3. apply other_c; nope. intros c H. inversion H.
  - intros w a excl w' b z Hz. apply other_c; nope. intros c H. inversion H.
  - (* one item *) intros e v HM (IH1 & IH2 & IH3). split; auto. intros c _. eauto.
  - (* members *) intros kn arrow e tc v HM (IH1 & _ & _). split; [intros c H; inversion H|]. split; [apply group_none; nope|].
    intros ns g tag k HPl HA HEn HF. cbn [tree] in HEn. inversion HEn as [p i u c w e' k' HN HT| | |]; subst. rewrite key_text in HN.
    inversion HPl as [kn' arrow' c u tc' Hex Hu| | |]; subst. inversion HF as [|y ys Hy Hys]; subst.
    destruct (IH1 c g k Hu) as (v0 & V1 & V2 & V3); auto; [intros es' ns' Hin; apply HA; now constructor|].
    exists v0. split; [simpl; lia|]. split; auto. split; auto. intros d fs vs l HL. exists [mkLeaf w d g v0]. split; [constructor; auto|]. split; [now constructor|].
    constructor; auto. constructor.
  - (* names *) intros w r l HI HN HM (IH1 & IH2 & IH3). assert (HG : GroupC (XAtom (AName w)) l) by (eapply name_group; eauto).
    assert (HT : forall c, Plain X E K rs opt c (XAtom (AName w)) -> exists x, l = [x] /\ TypeC (XAtom (AName w)) x).
    { intros c H. inversion H as [|w' Hw Hn|]; subst. destruct (proj1 (Forall_forall _ _) HP r HI) as [HB _].
      inversion HB as [c e' C'|es C'|w' C' C'']; subst; [|congruence|congruence]. destruct (IH1 _ C') as (x & -> & Hx). exists x. split; auto. eapply name_type; eauto. }
    split; auto. split; auto. apply name_elem; auto. intros Hw. apply (HT Scalar). rewrite <- Hw. apply pl_name; [congruence|]. exists r. auto.
  - (* groups *) intros es l HM IH. split; [intros c H; inversion H|]. split; [|apply elem_none; nope].
    intros t k HB HA HT HF. destruct (body_cases _ HB) as [(es' & Eq & Hes)|(w & Eq & _)]; [|discriminate Eq]. injection Eq as <-.
    apply group_is in HT as (fs & -> & HEn). destruct (IH fs k Hes) as (vs & V1 & V2 & V3); auto; [intros es' Hin ns Hm; eapply HA; eauto; now constructor|].
    exists fs, vs. split; [constructor|]. split; [now constructor|]. split; auto. intros d. destruct (V3 d) as (l' & L1 & L2 & L3). exists l'.
    split; auto. split; auto. now constructor.
  - intros e. split; [intros c H; inversion H|]. split; [apply group_none; nope|]. intros ns g tag k HPl. exfalso. inversion HPl; congruence.
  - intros e l HM _. split; [intros c H; inversion H|]. split; [apply group_none; nope|]. intros ns g tag k HPl. exfalso. inversion HPl; congruence.
  - intros e n l HM _. split; [intros c H; inversion H|]. split; [apply group_none; nope|]. intros ns g tag k HPl. inversion HPl.
  - intros e n l HM _. split; [intros c H; inversion H|]. split; [apply group_none; nope|]. intros ns g tag k HPl. inversion HPl.
  - intros l g r v HM _. split; [intros c H; inversion H|]. split; [apply group_none; nope|apply elem_none; nope].
  - intros l g r v HM _. split; [intros c H; inversion H|]. split; [apply group_none; nope|apply elem_none; nope].
  - (* no elements *) intros fs k _ _ HEn _. cbn [trees] in HEn. inversion HEn; subst. exists []. repeat split; try constructor.
    intros d. exists []. repeat split; constructor.
  - (* elements *) intros lead e comma r l1 l2 H1 (IH1 & IH2 & IH3) H2 IH fs k Hes HA HEn HF. apply fits_app in HF as [HF1 HF2].
    cbn [trees] in HEn. inversion HEn as [|n l [[ns g] tag] fs' k1 k2 HEn1 HEn2]; subst. inversion Hes as [|lead' e' comma' r' He Hr]; subst.
    destruct (IH fs' k2 Hr) as (vs & V1 & V2 & V3); auto; [intros es' Hin; apply HA; now constructor|].
    destruct (IH3 ns g tag k1 He) as (v0 & W1 & W2 & W3 & W4); auto; [intros es' ns' Hin; apply HA; now constructor|].
    exists (v0 :: vs). split; [constructor; auto|]. split; [constructor; auto|]. intros d. destruct (V3 d) as (l & L1 & L2 & L3).
    destruct (W4 d fs' vs l L1) as (l' & M1 & M2 & M3). exists (l' ++ l). split; auto. split; [rewrite map_app; now constructor|]. now apply encAll_app.
Qed.
End Proofs.

(** ** From sources to files *)

Lemma typeOf_strip : forall n, typeOf (strip n) = typeOf n.
Proof. intros []; reflexivity. Qed.

Lemma strip_types : forall X,
  (forall n e k, TypeIs X n e k -> TypeIs X (strip n) e k) /\ (forall n f k, EntryIs X n f k -> EntryIs X (strip n) f k) /\
  (forall l fs k, EntriesAre X l fs k -> EntriesAre X (map strip l) fs k).
Proof.
  intros X. apply (gen_ind X (fun n e k _ => TypeIs X (strip n) e k) (fun n f k _ => EntryIs X (strip n) f k) (fun l fs k _ => EntriesAre X (map strip l) fs k));
    intros; cbn [strip map option_map]; try (econstructor; eauto; fail).
  - eapply T_base; eauto. now rewrite typeOf_strip.
  - apply T_size; auto. now rewrite typeOf_strip.
Qed.

Lemma rule_of_tree : forall rs final p i v c, In (NRule p i v c) (treeRules rs final) <->
  exists r, In r (map snd rs) /\ NRule p i v c = NRule z (mkIdent z (rName r)) (tree (rBody r)) None.
Proof.
  intros rs final p i v c. assert (N : forall l, ~ In (NRule p i v c) (treeComments l)).
  { intros [|a [|b l]]; cbn; [tauto| |]; intros [H|[]]; discriminate H. }
  induction rs as [|[lead r] rs IH]; cbn [treeRules map snd].
  - split; [intros H; exfalso; eapply N; eauto|intros (r & [] & _)].
  - rewrite in_app_iff. cbn [In]. split.
    + intros [H|[H|H]]; [exfalso; eapply N; eauto|exists r; rewrite H; auto|]. apply IH in H as (r' & H1 & H2). eauto.
    + intros (r' & [->|H1] & H2); [right; left; auto|]. right. right. apply IH. eauto.
Qed.

Lemma name_among : forall X l ws, Forall2 (fun n w => GoName X (ruleName n) w) l ws -> forall m u, In m l -> GoName X (ruleName m) u -> In u ws.
Proof.
  intros X l ws H. induction H as [|n w l ws HN H IH]; intros m u Hm Hu; [destruct Hm|]. destruct Hm as [->|Hm]; [|right; eauto].
  left. eapply C36_names_unique; eauto.
Qed.

Lemma same_names : forall X l ws, Forall2 (fun n w => GoName X (ruleName n) w) l ws -> NoDup ws ->
  forall a b w, In a l -> In b l -> GoName X (ruleName a) w -> GoName X (ruleName b) w -> ruleName a = ruleName b.
Proof.
  intros X l ws H. induction H as [|n u l ws HN H IH]; intros HD a b w Ha Hb Wa Wb; [destruct Ha|]. inversion HD as [|? ? D1 D2]; subst.
  assert (K : forall m, In m l -> GoName X (ruleName m) u -> False) by (intros m Hm Hu; apply D1; eapply name_among; eauto).
  destruct Ha as [->|Ha], Hb as [->|Hb]; auto.
  - exfalso. apply (K b Hb). now rewrite (C36_names_unique _ _ _ _ HN Wa).
  - exfalso. apply (K a Ha). now rewrite (C36_names_unique _ _ _ _ HN Wb).
  - eapply IH; eauto.
Qed.

Lemma one_type : forall ds, NoDup (concat (map declared ds)) -> forall doc n e doc' e', In (GType doc n e) ds -> In (GType doc' n e') ds -> e = e'.
Proof.
  induction ds as [|d ds IH]; intros N doc n e doc' e' H1 H2; [destruct H1|]. cbn [map concat] in N.
  assert (K : forall doc n e, In (GType doc n e) ds -> In n (concat (map declared ds))).
  { intros doc0 m e0 HX. apply in_concat. exists [m]. split; [|now left]. change [m] with (declared (GType doc0 m e0)). now apply in_map. }
  destruct H1 as [H1|H1], H2 as [H2|H2].
  - congruence.
  - subst d. cbn in N. inversion N as [|? ? N1 N2]; subst. exfalso. apply N1. eapply K; eauto.
  - subst d. cbn in N. inversion N as [|? ? N1 N2]; subst. exfalso. apply N1. eapply K; eauto.
  - eapply IH; eauto. destruct d; cbn in N; auto; now inversion N.
Qed.

(** No rule has a Go name of the universe or a reserved one. *)
Definition FreshNames (X : GenExt) (rs : list rule) : Prop := forall r n, In r rs -> GoName X (rName r) n -> ~ In n reserved.

Lemma plain_not_literal : forall X E K rs opt c e, PlainBody X E K rs opt c e -> ~ literal (tree e).
Proof.
  intros X E K rs opt c e H HL.
  assert (N : forall e, Plain X E K rs opt c e -> ~ literal (tree e)).
  { clear. intros e H HL. unfold literal in HL. destruct H as [t Ht|w Hw Hn|es Hes]; cbn [tree treeAtom treeBracket] in HL.
    - simpl in Ht. destruct Ht as [<-|[<-|[<-|[<-|[<-|[<-|[]]]]]]]; cbn [treeType] in HL;
        destruct HL as [(a & b & d & HL)|[(a & b & d & HL)|[(a & b & d & HL)|(a & b & HL)]]]; discriminate HL.
    - destruct HL as [(a & b & d & HL)|[(a & b & d & HL)|[(a & b & d & HL)|(a & b & HL)]]]; discriminate HL.
    - destruct HL as [(a & b & d & HL)|[(a & b & d & HL)|[(a & b & d & HL)|(a & b & HL)]]]; discriminate HL. }
  destruct H as [c e H|es H|w H H']; [now apply (N e)| |]; unfold literal in HL; cbn [tree treeAtom treeBracket] in HL;
    destruct HL as [(a & b & d & HL)|[(a & b & d & HL)|[(a & b & d & HL)|(a & b & HL)]]]; discriminate HL.
Qed.

Lemma strip_literal : forall n, literal n -> literal (strip n).
Proof.
  intros n [(p & t & v & ->)|[(p & t & v & ->)|[(p & t & v & ->)|(p & t & ->)]]]; unfold literal; cbn [strip]; eauto 8.
Qed.

Lemma root_is : forall root d, strip root = docTree d -> exists p rules, root = NCDDL p rules /\ map strip rules = treeRules (dRules d) (dFinal d).
Proof. intros root d H. unfold docTree in H. destruct root; cbn [strip] in H; try discriminate H. injection H as H. eauto. Qed.

Lemma doc_flat : forall rr final p r, ~ In (NCDDL p r) (treeRules rr final).
Proof.
  intros rr final p r. assert (N : forall l, ~ In (NCDDL p r) (treeComments l)).
  { intros [|a [|b l]]; cbn; [tauto| |]; intros [H|[]]; discriminate H. }
  induction rr as [|[lead r'] rr IH]; cbn [treeRules]; [apply N|]. rewrite in_app_iff. intros [H|[H|H]]; [eapply N; eauto|discriminate H|auto].
Qed.

Lemma file_declares : forall X E K opt twice pkg d root g, strip root = docTree d ->
  visit X root (newGenerator pkg) = Ok g ->
  GoOk (fun w => gIsIdent X w = true) twice (gPkg (genString X g)) (gDecls (genString X g)) ->
  FreshNames X (rulesIn d) -> Forall (PlainRule X E K (rulesIn d) opt) (rulesIn d) -> Declares X (rulesIn d) (gDecls (genString X g)).
Proof.
  intros X E K opt twice pkg d root g HS HV HG HF HP.
  destruct (root_is _ _ HS) as (p0 & rules & -> & HS').
  clear HS. rename HS' into HS.
  assert (HFl : flat rules).
  { intros q r HI. apply (in_map strip) in HI. rewrite HS in HI. eapply doc_flat; eauto. }
  destruct (C39_imports X pkg _ rules g HFl HV) as (ds & HFi & ED). fold (full X rules ds) in ED. rewrite ED in *.
  assert (RIN : forall p i v c, In (NRule p i v c) rules -> exists r, In r (rulesIn d) /\ iName i = rName r /\ strip v = tree (rBody r)).
  { intros p i v c HI. apply (in_map strip) in HI. rewrite HS in HI. cbn [strip] in HI. apply rule_of_tree in HI as (r & H1 & H2).
    exists r. injection H2 as H2 H3. split; auto. }
  assert (INR : forall r, In r (rulesIn d) -> exists p i v c, In (NRule p i v c) rules /\ iName i = rName r /\ strip v = tree (rBody r)).
  { intros r HI. assert (H : In (NRule z (mkIdent z (rName r)) (tree (rBody r)) None) (map strip rules)) by (rewrite HS; apply rule_of_tree; eauto).
    apply in_map_iff in H as (n & H1 & H2). destruct n; cbn [strip] in H1; try discriminate H1. injection H1 as H1 H3. eexists _, _, _, _. split; [exact H2|].
    auto. }
  assert (TY : forall doc n e, In (GType doc n e) (full X rules ds) -> exists r k, In r (rulesIn d) /\ GoName X (rName r) n /\ TypeIs X (tree (rBody r)) e k).
  { intros doc n e HI. apply in_full in HI; [|discriminate]. destruct (decl_in _ _ _ _ _ HFi HI) as (p & i & v & c & w & e' & k & A & B & C & D).
    destruct D as [[_ D]|[[_ D]|D]]; try discriminate D. injection D as _ -> ->. destruct (RIN _ _ _ _ A) as (r & R1 & R2 & R3).
    exists r, k. split; auto. rewrite <- R2, <- R3. split; auto. now apply (strip_types X). }
  assert (ND : NoDup (concat (map declared (full X rules ds)))) by apply HG.
  split; auto.
  - intros r HI. destruct (INR r HI) as (p & i & v & c & A & B & C). destruct (in_decl _ _ _ _ _ _ _ _ HFi A) as (w & e & k & D1 & D2 & D3 & _).
    rewrite Forall_forall in HP. destruct (HP r HI) as [HB _]. destruct D3 as [[D3 _]|[_ D3]].
    + exfalso. eapply plain_not_literal; [exact HB|]. rewrite <- C. now apply strip_literal.
    + exists (declDoc (iName i)), w, e, k. rewrite <- B, <- C. split; auto. split; [now apply (strip_types X)|]. apply in_full; [discriminate|auto].
  - intros r r' n H1 H2 N1 N2. destruct (INR r H1) as (p & i & v & c & A & B & _). destruct (INR r' H2) as (p' & i' & v' & c' & A' & B' & _).
    rewrite full_names in ND. pose proof (declared_names _ _ _ _ HFi) as HDe.
    pose proof (same_names X _ _ HDe ND (NRule p i v c) (NRule p' i' v' c') n) as SN. cbn [ruleName] in SN. rewrite B, B' in SN. apply SN; auto.
    + apply filter_In. auto.
    + apply filter_In. auto.
  - intros. eapply one_type; eauto.
  - intros doc n e HI. destruct (TY _ _ _ HI) as (r & k & R1 & R2 & _). eapply HF; eauto.
Qed.

(** ** C82 *)

(** [Accepted]: the source [s] parses to the tree of [d], and the file generated from it in the
    package [pkg] is accepted by the compiler; [ds] are its declarations. *)
Definition Accepted (X : Ext) (XG : GenExt) (twice : bool) (pkg s : bytes) (d : doc) (ds : list gdecl) : Prop :=
  exists root p' g, clean X s [] root p' /\ strip root = docTree d /\ visit XG root (newGenerator pkg) = Ok g /\
    ds = gDecls (genString XG g) /\ GoOk (fun w => gIsIdent XG w = true) twice pkg ds.

Lemma accepted_declares : forall X XG E K opt twice pkg s d ds, Accepted X XG twice pkg s d ds ->
  FreshNames XG (rulesIn d) -> Forall (PlainRule XG E K (rulesIn d) opt) (rulesIn d) -> Declares XG (rulesIn d) ds.
Proof.
  intros X XG E K opt twice pkg s d ds (root & p' & g & _ & HS & HV & -> & HG) HF HP.
  eapply file_declares; eauto. replace (gPkg (genString XG g)) with pkg; [exact HG|]. cbn [genString gPkg].
  destruct (root_is _ _ HS) as (p0 & rules & -> & HS'). apply C36_file in HV.
  - destruct HV as (ds & k & _ & ->). reflexivity.
  - intros q r HI. apply (in_map strip) in HI. rewrite HS' in HI. eapply doc_flat; eauto.
Qed.

(** The values of a generated type - their strings being UTF-8 and their slices not nil - have
    one encoding each, and the rule describes it. *)
Theorem C82_sound : forall X XG E K opt twice pkg s d ds r n v,
  Accepted X XG twice pkg s d ds -> FreshNames XG (rulesIn d) -> ~ E (str "_") ->
  Forall (PlainRule XG E K (rulesIn d) opt) (rulesIn d) ->
  In r (rulesIn d) -> K (rName r) <> Grp -> GoName XG (rName r) n -> HasType ds (GIdent n) v -> Proper v ->
  exists x, (forall y, Enc ds E (GIdent n) v y <-> y = x) /\ Describes d (rName r) x.
Proof.
  intros X XG E K opt twice pkg s d ds r n v HA HF HE HP HI HK HN HT HV.
  pose proof (accepted_declares _ _ _ _ _ _ _ _ _ _ HA HF HP) as HD.
  destruct (has_type_ok XG E K (rulesIn d) opt ds HD HP HE) as [H _]. destruct (H _ _ HT HV) as [H1 _].
  destruct (H1 (XAtom (AName (rName r))) (K (rName r)) 0%nat) as (x & X1 & X2).
  - apply pl_name; auto. exists r. auto.
  - apply apart_name.
  - cbn [tree treeAtom]. now constructor.
  - exists x. split; auto. intros y. split; [|intros ->; auto]. intros Hy. symmetry. eapply (proj1 (enc_fun XG E (rulesIn d) ds HD)); eauto.
Qed.

(** ** C83 *)

(** If no member is optional: an item that the rule describes, with integers in the range of
    int, is the encoding of a value of the generated type. *)
Theorem C83_complete : forall X XG E K twice pkg s d ds r n x,
  Accepted X XG twice pkg s d ds -> FreshNames XG (rulesIn d) -> ~ E (str "_") ->
  Forall (PlainRule XG E K (rulesIn d) false) (rulesIn d) ->
  In r (rulesIn d) -> K (rName r) <> Grp -> GoName XG (rName r) n -> Describes d (rName r) x -> Fits x ->
  exists v, HasType ds (GIdent n) v /\ Proper v /\ forall y, Enc ds E (GIdent n) v y <-> y = x.
Proof.
  intros X XG E K twice pkg s d ds r n x HA HF HE HP HI HK HN HM HX.
  pose proof (accepted_declares _ _ _ _ _ _ _ _ _ _ HA HF HP) as HD.
  destruct (describes_ok XG E K (rulesIn d) false ds HD HP HE eq_refl) as [H _]. destruct (H _ _ HM) as [H1 _].
  destruct (H1 (K (rName r)) (GIdent n) 0%nat) as (v & V1 & V2 & V3); auto.
  - apply pl_name; auto. exists r. auto.
  - apply apart_name.
  - cbn [tree treeAtom]. now constructor.
  - exists v. split; auto. split; auto. intros y. split; [|intros ->; auto]. intros Hy. symmetry. eapply (proj1 (enc_fun XG E (rulesIn d) ds HD)); eauto.
Qed.
