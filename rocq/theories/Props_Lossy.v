(** Examples for C82 and C83, and the documents outside their fragment whose generated types do
    not hold the data described. *)
From Coq Require Import String.
From Verif Require Import Base Utf8 Token Strconv Ext Ast Env Parser Doc DocText Props_Lexer Props_Parser Props_Doc
  Codegen GoSpec GoCheck Props_Codegen Props_GoFile JsonSpec Props_Json Cddl GoCbor Props_Meaning.
Open Scope string_scope.
Open Scope list_scope.
Open Scope Z_scope.

(** Exported names, those of ASCII. *)
Definition exported (n : bytes) : Prop := 65 <= hd 0 n <= 90.

(** The declarations of the file generated from a source. *)
Definition declsOf (s : bytes) : list gdecl :=
  match parseSource X0 (parseFuel s) s [] with
  | Ok ((Some root, None), _) =>
      match visit XGo root (newGenerator (str "main")) with Ok g => gDecls (genString XGo g) | _ => [] end
  | _ => []
  end.

(** [s] parses without a diagnostic and the file generated from it is accepted by the compiler. *)
Definition Compiles (s : bytes) (ds : list gdecl) : Prop :=
  exists root p' g, clean X0 s [] root p' /\ visit XGo root (newGenerator (str "main")) = Ok g /\
    ds = gDecls (genString XGo g) /\ GoOk (fun w => gIsIdent XGo w = true) false (str "main") ds.

Definition compilesB (s : bytes) : bool :=
  match parseSource X0 (parseFuel s) s [] with
  | Ok ((Some root, None), _) =>
      match visit XGo root (newGenerator (str "main")) with
      | Ok g => goOkB (gIsIdent XGo) (str "main") (gDecls (genString XGo g))
      | _ => false
      end
  | _ => false
  end.

Lemma compiles_by : forall s, compilesB s = true -> Compiles s (declsOf s).
Proof.
  intros s H. unfold compilesB in H. unfold Compiles, declsOf, clean. destruct (parseSource X0 (parseFuel s) s []) as [[[[root|] [dg|]] p']| | |]; try discriminate H.
  destruct (visit XGo root (newGenerator (str "main"))) as [g| | |] eqn:EV; try discriminate H. exists root, p', g.
  split; [reflexivity|]. split; [exact EV|]. split; [reflexivity|]. now apply goOkB_sound.
Qed.

Definition one (w : string) (e : expr) : list bytes * rule := ([], mkDRule (str w) ASSIGN e).
Fixpoint els (l : list expr) : elems := match l with [] => ENil | [e] => ECons [] e false ENil | e :: r => ECons [] e true (els r) end.
Definition arr (l : list expr) : expr := XBracket BArray (els l).
Definition grp (l : list expr) : expr := XBracket BGroup (els l).
Definition mem (w : string) (e : expr) : expr := nm w e None.


(** ** An accepted document *)

(** shape = [named, flag, origin: point, raw: bytes, box: [w: uint]]  point = [x: int, y: int]
    named = (label: text, id: uint)  flag = bool *)
Definition d_good : doc := mkDoc [one "shape" (arr [rf "named"; rf "flag"; mem "origin" (rf "point"); mem "raw" (ty BYTES); mem "box" (arr [mem "w" (ty UINT)])]);
  one "point" (arr [mem "x" (ty INT); mem "y" (ty INT)]); one "named" (grp [mem "label" (ty TEXT); mem "id" (ty UINT)]); one "flag" (ty BOOL)] [].
(** The same with an optional member: point = [x: int, ? y: int]. *)
Definition d_opt : doc := mkDoc [one "point" (arr [mem "x" (ty INT); XPrefix PreOpt (mem "y" (ty INT))])] [].

Definition K_good (w : bytes) : cls := if beq w (str "named") then Grp else if beq w (str "flag") then Scalar else Arr.


Definition goName (w : bytes) : bytes := match transpileIdentifier XGo (mkIdent (mkPos [] 0 0 0) w) with Ok u => u | _ => [] end.

Lemma goName_of : forall w n, goName w <> [] -> GoName XGo w n -> n = goName w.
Proof.
  intros w n H HN. unfold goName in *. destruct (transpileIdentifier XGo (mkIdent (mkPos [] 0 0 0) w)) as [u| | |] eqn:E; try congruence.
  eapply goName_is; [|exact E]. exact HN.
Qed.

Lemma goName_ok : forall w, goName w <> [] -> GoName XGo w (goName w).
Proof.
  intros w H. unfold goName in *. destruct (transpileIdentifier XGo (mkIdent (mkPos [] 0 0 0) w)) as [u| | |] eqn:E; try congruence.
  apply goName_by in E. exact E.
Qed.

Lemma exported_by : forall w, exported (goName w) -> Exported XGo exported w.
Proof.
  intros w HE n HN. rewrite (goName_of w n); auto. intros K. rewrite K in HE. unfold exported in HE. simpl in HE. lia.
Qed.

Ltac exported := apply exported_by; vm_compute; split; discriminate.
Ltac named := unfold Named; first [eexists; split; [left; reflexivity|reflexivity]|eexists; split; [right; left; reflexivity|reflexivity]|
  eexists; split; [do 2 right; left; reflexivity|reflexivity]|eexists; split; [do 3 right; left; reflexivity|reflexivity]].
Ltac plain := match goal with
  | |- Plain _ _ _ _ _ _ (XAtom (AType _)) => apply pl_base; simpl; tauto
  | |- Plain _ _ _ _ _ _ (XAtom (AName _)) => apply pl_name; [discriminate|named]
  | |- Plain _ _ _ _ _ _ (XBracket _ _) => apply pl_array; plain
  | |- PlainElems _ _ _ _ _ ENil => apply pes_nil
  | |- PlainElems _ _ _ _ _ (ECons _ _ _ _) => apply pes_cons; plain
  | |- PlainElem _ _ _ _ _ (XMember _ _ _ _) => eapply pe_member; [exported|plain]
  | |- PlainElem _ _ _ _ _ (XPrefix _ _) => eapply pe_optional; [reflexivity|exported|plain]
  | |- PlainElem _ _ _ _ _ (XAtom (AName _)) => first [apply pe_scalar; [reflexivity|named|exported]|apply pe_group; [reflexivity|named]]
  end.
Ltac shape := cbv beta iota delta [one arr grp mem nm rf ty els snd rBody rName] in *.
Ltac body := shape; first [apply pb_type; plain|apply pb_group; plain].

(** The Go names of the fields of an entry, by computation. *)
Fixpoint namesIn (n : nat) (K : bytes -> cls) (rs : list rule) (e : expr) : option (list bytes) :=
  match n with
  | O => None
  | S n =>
    match e with
    | XMember k _ _ _ | XPrefix PreOpt (XMember k _ _ _) => Some [goName (keyText k)]
    | XAtom (AName w) =>
        match K w with
        | Scalar => Some [goName w]
        | Grp => match filter (fun r => beq (rName r) w) rs with [r] => namesIn n K rs (rBody r) | _ => None end
        | Arr => None
        end
    | XBracket BGroup es => namesAll n K rs es
    | _ => None
    end
  end
with namesAll (n : nat) (K : bytes -> cls) (rs : list rule) (es : elems) : option (list bytes) :=
  match n with
  | O => None
  | S n =>
    match es with
    | ENil => Some []
    | ECons _ e _ r => match namesIn n K rs e, namesAll n K rs r with Some a, Some b => Some (a ++ b) | _, _ => None end
    end
  end.

Lemma names_sound : forall n K rs,
  (forall e l, namesIn n K rs e = Some l -> ~ In [] l -> forall ns, Members XGo K rs e ns -> ns = l) /\
  (forall es l, namesAll n K rs es = Some l -> ~ In [] l -> forall ns, MembersAll XGo K rs es ns -> ns = l).
Proof.
  induction n as [|n IH]; intros K rs; split; try discriminate; destruct (IH K rs) as [I1 I2]; intros e l H HL ns HM.
  - inversion HM as [k a v tc m HN|k a v tc m HN|w m HK HN|w r ms HK HR HW HB|es ms HB]; subst; cbn [namesIn] in H.
    + injection H as <-. f_equal. apply goName_of; auto. intros E. apply HL. rewrite E. now left.
    + injection H as <-. f_equal. apply goName_of; auto. intros E. apply HL. rewrite E. now left.
    + rewrite HK in H. injection H as <-. f_equal. apply goName_of; auto. intros E. apply HL. rewrite E. now left.
    + rewrite HK in H. destruct (filter _ rs) as [|r' [|]] eqn:F; try discriminate H.
      assert (In r [r']) as [<-|[]]. { rewrite <- F. apply filter_In. split; auto. now apply EnvProofs.beq_iff. }
      eapply I1; eauto.
    + eapply I2; eauto.
  - inversion HM as [|lead e' c r ns' ms H1 H2]; subst; cbn [namesAll] in H; [congruence|].
    destruct (namesIn n K rs e') as [a|] eqn:E1; [|discriminate H]. destruct (namesAll n K rs r) as [b|] eqn:E2; [|discriminate H]. injection H as <-.
    f_equal; [eapply I1|eapply I2]; eauto; intros HI; apply HL, in_or_app; auto.
Qed.

(** The arrays within a type, by computation. *)
Fixpoint arraysIn (e : expr) : list elems :=
  match e with
  | XBracket b es => (match b with BArray => [es] | _ => [] end) ++ arraysAmong es
  | XMember _ _ v _ => arraysIn v
  | XPrefix _ v => arraysIn v
  | _ => []
  end
with arraysAmong (es : elems) : list elems :=
  match es with ENil => [] | ECons _ e _ r => arraysIn e ++ arraysAmong r end.

Lemma arrays_sound : (forall e es, ArrayIn e es -> In es (arraysIn e)).
Proof.
  fix IH 3. assert (G : forall es es', ArrayAmong es es' -> In es' (arraysAmong es)).
  { fix G 3. intros es es' H. destruct H; cbn [arraysAmong]; apply in_or_app; auto. }
  intros e es H. destruct H; cbn [arraysIn]; auto; [now left|]. apply in_or_app. auto.
Qed.

Definition apartB (n : nat) (K : bytes -> cls) (rs : list rule) (e : expr) : bool :=
  forallb (fun es => match namesAll n K rs es with Some l => nodupB l && negb (inB [] l) | None => false end) (arraysIn e).

Lemma apart_by : forall n K rs e, apartB n K rs e = true -> Apart XGo K rs e.
Proof.
  intros n K rs e H es ns HA HM. unfold apartB in H. rewrite forallb_forall in H. apply arrays_sound, H in HA.
  destruct (namesAll n K rs es) as [l|] eqn:E; [|discriminate HA]. apply andb_prop in HA as [H1 H2].
  replace ns with l; [now apply nodupB_sound|]. symmetry. eapply (proj2 (names_sound n K rs)); eauto.
  intros HI. apply inB_iff in HI. rewrite HI in H2. discriminate H2.
Qed.

Ltac apart := apply (apart_by 50); vm_compute; reflexivity.

Lemma good_plain : Forall (PlainRule XGo exported K_good (rulesIn d_good) false) (rulesIn d_good).
Proof. repeat (apply Forall_cons; [split; [body|apart]|]). apply Forall_nil. Qed.

Lemma opt_plain : Forall (PlainRule XGo exported K_good (rulesIn d_opt) true) (rulesIn d_opt).
Proof. repeat (apply Forall_cons; [split; [body|apart]|]). apply Forall_nil. Qed.

Definition acceptedB (d : doc) : Prop :=
  match parseSource X0 (parseFuel (printDoc d)) (printDoc d) [] with
  | Ok ((Some root, None), _) => strip root = docTree d
  | _ => False
  end.

Lemma accepted_by : forall d, compilesB (printDoc d) = true -> acceptedB d -> Accepted X0 XGo false (str "main") (printDoc d) d (declsOf (printDoc d)).
Proof.
  intros d H HS. unfold compilesB in H. unfold acceptedB in HS. unfold Accepted, declsOf, clean.
  destruct (parseSource X0 (parseFuel (printDoc d)) (printDoc d) []) as [[[[root|] [dg|]] p']| | |]; try discriminate H.
  destruct (visit XGo root (newGenerator (str "main"))) as [g| | |] eqn:EV; try discriminate H. exists root, p', g.
  split; [reflexivity|]. split; [exact HS|]. split; [exact EV|]. split; [reflexivity|]. now apply goOkB_sound.
Qed.

Lemma fresh_by : forall rs, forallb (fun r => negb (inB (goName (rName r)) ([] :: reserved))) rs = true -> FreshNames XGo rs.
Proof.
  intros rs H r n HI HN. rewrite forallb_forall in H. specialize (H r HI). destruct (inB (goName (rName r)) ([] :: reserved)) eqn:E; [discriminate H|].
  assert (G : ~ In (goName (rName r)) ([] :: reserved)) by (intros K; apply inB_iff in K; congruence).
  rewrite (goName_of _ _ (fun K => G (or_introl (eq_sym K))) HN). intros K. apply G. now right.
Qed.

Lemma good_accepted : Accepted X0 XGo false (str "main") (printDoc d_good) d_good (declsOf (printDoc d_good)).
Proof. apply accepted_by; vm_compute; reflexivity. Qed.

Lemma opt_accepted : Accepted X0 XGo false (str "main") (printDoc d_opt) d_opt (declsOf (printDoc d_opt)).
Proof. apply accepted_by; vm_compute; reflexivity. Qed.


(** The name of a rule, the declarations and a value. *)
Ltac inrange := unfold isByte; split; [apply Z.leb_le; reflexivity|apply Z.ltb_lt; reflexivity].
Ltac pick := repeat (first [left; reflexivity|right]).
Ltac typed := match goal with
  | |- HasType _ (GIdent _) _ => first [apply ht_int; inrange|apply ht_uint; inrange|apply ht_byte; inrange|apply ht_bool|
      apply ht_string; repeat (apply Forall_cons; [inrange|]); apply Forall_nil|eapply ht_name; [pick|typed]]
  | |- HasType _ (GSlice _) (VSlice None) => apply ht_nil
  | |- HasType _ (GSlice _) (VSlice _) => apply ht_slice; typed
  | |- HasType _ (GStruct _) _ => apply ht_struct; typed
  | |- HasTypes _ _ [] => apply hs_nil
  | |- HasTypes _ _ _ => apply hs_cons; typed
  | |- HaveTypes _ [] _ => apply hv_nil
  | |- HaveTypes _ _ _ => apply hv_cons; [apply Nat.leb_le; reflexivity|typed|typed]
  end.
Ltac proper := match goal with
  | |- Proper (VString _) => apply pr_string, utf8_ascii; repeat (apply Forall_cons; [inrange|]); apply Forall_nil
  | |- Proper (VInt _) => apply pr_int
  | |- Proper (VUint _) => apply pr_uint
  | |- Proper (VBool _) => apply pr_bool
  | |- Proper (VSlice _) => apply pr_slice; proper
  | |- Proper (VStruct _) => apply pr_struct; proper
  | |- ProperAll [] => apply pa_nil
  | |- ProperAll _ => apply pa_cons; proper
  end.
Ltac nostruct := let gs := fresh in let H := fresh in intros gs H; repeat match goal with
  | H : IsStruct _ (GIdent _) _ |- _ => inversion H; clear H; subst
  | H : In _ _ |- _ => repeat destruct H as [H|H]; try discriminate H; try solve [destruct H]
  | H : GType _ _ _ = GType _ _ _ |- _ => injection H; clear H; intros; subst
  | H : IsStruct _ _ _ |- _ => inversion H; clear H; subst
  | H : False |- _ => destruct H
  end.
Ltac isstruct := first [apply is_struct|eapply is_named; [pick|isstruct]].
Ltac leaves := match goal with
  | |- Leaves _ _ _ [] _ _ => apply lv_nil
  | |- Leaves _ _ _ (([_], _, _) :: _) _ _ => first [eapply lv_field; [vm_compute; split; discriminate|leaves]|
      eapply lv_private; [vm_compute; intros [? ?]; now auto|leaves]]
  | |- Leaves _ _ _ _ (VStruct _ :: _) _ => eapply lv_embedded; [isstruct|leaves|leaves]
  | |- Leaves _ _ _ _ _ _ => eapply lv_other; [nostruct|vm_compute; split; discriminate|leaves]
  end.
Ltac enc := match goal with
  | |- Enc _ _ (GIdent _) _ _ => first [apply en_int|apply en_uint|apply en_bool|apply en_string|eapply en_name; [pick|enc]]
  | |- Enc _ _ (GSlice _) (VSlice None) _ => apply en_nil
  | |- Enc _ _ (GSlice _) _ _ => apply (en_bytes _ _ [255])
  | |- Enc _ _ (GStruct _) _ _ => eapply en_struct; [eexists; pick|leaves|vm_compute visible; enc]
  | |- EncAll _ _ [] _ => apply ea_nil
  | |- EncAll _ _ _ _ => apply ea_cons; [cbn [lType lVal]; enc|enc]
  end.
Ltac reveal := match goal with |- context [declsOf ?s] => let x := eval vm_compute in (declsOf s) in replace (declsOf s) with x by (vm_compute; reflexivity) end.

Definition v_good : gval := VStruct [VStruct []; VStruct [VString (str "dot"); VUint 7]; VBool true;
  VStruct [VStruct []; VInt (-1); VInt 2]; VSlice (Some [VUint 255]); VStruct [VStruct []; VUint 9]].
Definition x_good : cbor := CArray [CText (str "dot"); CInt 7; CBool true; CArray [CInt (-1); CInt 2]; CBytes [255]; CArray [CInt 9]].

Lemma good_typed : HasType (declsOf (printDoc d_good)) (GIdent (str "Shape")) v_good /\ Proper v_good.
Proof. reveal. unfold v_good. split; [typed|proper]. Qed.

Lemma good_enc : Enc (declsOf (printDoc d_good)) exported (GIdent (str "Shape")) v_good x_good.
Proof. reveal. unfold v_good, x_good. enc. Qed.

Lemma good_fresh : FreshNames XGo (rulesIn d_good).
Proof. apply fresh_by. vm_compute. reflexivity. Qed.

Lemma shape_name : GoName XGo (str "shape") (str "Shape").
Proof. exact (goName_ok (str "shape") ltac:(discriminate)). Qed.

Lemma good_described : Describes d_good (str "shape") x_good.
Proof.
  destruct good_typed as [HT HV].
  destruct (C82_sound X0 XGo exported K_good false false (str "main") (printDoc d_good) d_good _ (snd (hd (one "" (ty INT)) (dRules d_good))) (str "Shape") v_good
    good_accepted good_fresh) as (x & H1 & H2); auto.
  - vm_compute. intros [_ H]. now apply H.
  - exact good_plain.
  - now left.
  - discriminate.
  - exact shape_name.
  - rewrite (proj1 (H1 x_good) good_enc). exact H2.
Qed.

(** The hypotheses of C82 hold of this document, with a value of three kinds of fields. *)
Example C82_ex : Accepted X0 XGo false (str "main") (printDoc d_good) d_good (declsOf (printDoc d_good)) /\
  FreshNames XGo (rulesIn d_good) /\ ~ exported (str "_") /\ Forall (PlainRule XGo exported K_good (rulesIn d_good) false) (rulesIn d_good) /\
  K_good (str "shape") <> Grp /\ GoName XGo (str "shape") (str "Shape") /\
  HasType (declsOf (printDoc d_good)) (GIdent (str "Shape")) v_good /\ Proper v_good /\
  Enc (declsOf (printDoc d_good)) exported (GIdent (str "Shape")) v_good x_good /\ Describes d_good (str "shape") x_good.
Proof.
  pose proof good_typed as [HT HV]. split; [exact good_accepted|]. split; [exact good_fresh|]. split; [vm_compute; intros [_ H]; now apply H|].
  split; [exact good_plain|]. split; [discriminate|]. split; [exact shape_name|]. split; [exact HT|]. split; [exact HV|]. split; [exact good_enc|exact good_described].
Qed.

(** Those of C83 hold of the item that value is written as. *)
Example C83_ex : Describes d_good (str "shape") x_good /\ Fits x_good.
Proof.
  split; [exact good_described|]. unfold x_good.
  repeat first [apply ft_array|apply ft_text|apply ft_bool|apply ft_bytes|apply ft_int; inrange|apply fa_cons|apply fa_nil].
Qed.

(** ** Documents the theorems leave out *)

(** [Strays d w P]: the document is accepted, and some value - with the property [P] - of the
    type generated from the rule [w] is written as data that [w] does not describe. *)
Definition Strays (d : doc) (w : bytes) (P : gval -> Prop) : Prop :=
  exists ds n v x, Compiles (printDoc d) ds /\ GoName XGo w n /\ HasType ds (GIdent n) v /\ P v /\ Enc ds exported (GIdent n) v x /\ ~ Describes d w x.

(** [Lacks d w P]: some item - with the property [P] - that [w] describes is not what any value
    of the generated type is written as. *)
Definition Lacks (d : doc) (w : bytes) (P : cbor -> Prop) : Prop :=
  exists ds n x, Compiles (printDoc d) ds /\ GoName XGo w n /\ Describes d w x /\ P x /\
    forall v, HasType ds (GIdent n) v -> ~ Enc ds exported (GIdent n) v x.

(** a = [int] *)
Definition d_items : doc := mkDoc [one "a" (arr [ty INT])] [].
(** a = [p, y: int]  p = [x: int] *)
Definition d_arrays : doc := mkDoc [one "a" (arr [rf "p"; mem "y" (ty INT)]); one "p" (arr [mem "x" (ty INT)])] [].
(** a = [p, x: int]  p = (x: int) *)
Definition d_hidden : doc := mkDoc [one "a" (arr [rf "p"; mem "x" (ty INT)]); one "p" (grp [mem "x" (ty INT)])] [].
(** a = [$x: int] *)
Definition d_private : doc := mkDoc [one "a" (arr [mem "$x" (ty INT)])] [].
(** a = bytes; a = tstr; a = int *)
Definition d_bytes : doc := mkDoc [one "a" (ty BYTES)] [].
Definition d_text : doc := mkDoc [one "a" (ty TSTR)] [].
Definition d_int : doc := mkDoc [one "a" (ty INT)] [].

Lemma a_name : GoName XGo (str "a") (str "A").
Proof. exact (goName_ok (str "a") ltac:(discriminate)). Qed.

Ltac astray v x := match goal with |- Strays ?d _ _ => exists (declsOf (printDoc d)), (str "A"), v, x end;
  split; [apply compiles_by; vm_compute; reflexivity|]; split; [exact a_name|]; split; [reveal; typed|].

Lemma describes_inv : forall d w v, Describes d w v -> exists r, In r (rulesIn d) /\ rName r = w /\ MType (rulesIn d) (rBody r) v.
Proof. intros d w v H. unfold Describes in H. inversion H; subst. eauto. Qed.

Lemma array_inv : forall rs es v, MType rs (XBracket BArray es) v -> exists l, v = CArray l /\ MElems rs es l.
Proof. intros rs es v H. inversion H; subst. eauto. Qed.

Lemma elems_inv : forall rs lead e c r l, MElems rs (ECons lead e c r) l -> exists l1 l2, l = l1 ++ l2 /\ MSeq rs e l1 /\ MElems rs r l2.
Proof. intros rs lead e c r l H. inversion H; subst. eauto. Qed.

Lemma end_inv : forall rs l, MElems rs ENil l -> l = [].
Proof. intros rs l H. now inversion H. Qed.

Lemma seq_base : forall rs t l, MSeq rs (XAtom (AType t)) l -> exists v, l = [v] /\ MType rs (XAtom (AType t)) v.
Proof. intros rs t l H. inversion H; subst. eauto. Qed.

Lemma seq_member : forall rs k a e c l, MSeq rs (XMember k a e c) l -> exists v, l = [v] /\ MType rs e v.
Proof. intros rs k a e c l H. inversion H as [? ? HM| | | | | | | | |]; subst; eauto. inversion HM. Qed.

Lemma seq_name : forall rs w l, MSeq rs (XAtom (AName w)) l -> exists r, In r rs /\ rName r = w /\ MSeq rs (rBody r) l.
Proof. intros rs w l H. inversion H as [? ? HM| | | | | | | | |]; subst; eauto. inversion HM; subst. eexists. split; [eassumption|]. split; auto. now apply ms_type. Qed.

Lemma seq_array : forall rs es l, MSeq rs (XBracket BArray es) l -> exists m, l = [CArray m] /\ MElems rs es m.
Proof. intros rs es l H. inversion H as [? ? HM| | | | | | | | |]; subst. apply array_inv in HM as (m & -> & HM). eauto. Qed.

Lemma seq_group : forall rs es l, MSeq rs (XBracket BGroup es) l -> MElems rs es l \/ exists lead e v, es = ECons lead e false ENil /\ MType rs e v /\ l = [v].
Proof. intros rs es l H. inversion H as [? ? HM| | | | | | | | |]; subst; auto. inversion HM; subst. right. eauto 6. Qed.

Ltac therule H := apply describes_inv in H as (r & HI & HN & H); cbn [rulesIn map dRules] in HI; vm_compute in HN;
  repeat destruct HI as [<-|HI]; [..|destruct HI]; try discriminate HN; clear HN; shape.

(** The parser drops an item without a key: the empty array is written. *)
Theorem C82_items_refuted : Strays d_items (str "a") Proper.
Proof.
  astray (VStruct [VStruct []]) (CArray []). split; [proper|]. split; [reveal; enc|]. intros H. therule H.
  apply array_inv in H as (l & E & H). injection E as <-. apply elems_inv in H as (l1 & l2 & E & H & _). apply seq_base in H as (v & -> & _). discriminate E.
Qed.

(** The fields of an array within an array are written without the inner brackets. *)
Theorem C82_arrays_refuted : Strays d_arrays (str "a") Proper.
Proof.
  astray (VStruct [VStruct []; VStruct [VStruct []; VInt 1]; VInt 2]) (CArray [CInt 1; CInt 2]). split; [proper|]. split; [reveal; enc|]. intros H. therule H.
  apply array_inv in H as (l & E & H). injection E as <-. apply elems_inv in H as (l1 & l2 & E & H & _). apply seq_name in H as (r & HI & HN & H).
  vm_compute in HN. destruct HI as [<-|[<-|[]]]; [discriminate HN|]. shape. apply seq_array in H as (m & -> & _). discriminate E.
Qed.

(** A field hides that of the same name of a group, which is not written. *)
Theorem C82_hidden_refuted : Strays d_hidden (str "a") Proper.
Proof.
  astray (VStruct [VStruct []; VStruct [VInt 1]; VInt 2]) (CArray [CInt 2]). split; [proper|]. split; [reveal; enc|]. intros H. therule H.
  apply array_inv in H as (l & E & H). injection E as <-. apply elems_inv in H as (l1 & l2 & E & H & H'). apply seq_name in H as (r & HI & HN & H).
  vm_compute in HN. destruct HI as [<-|[<-|[]]]; [discriminate HN|]. shape.
  apply elems_inv in H' as (l3 & l4 & -> & H' & _). apply seq_member in H' as (v & -> & _).
  apply seq_group in H as [H|(lead & e & v' & HE & _ & ->)]; [|cbn in E; discriminate E].
  apply elems_inv in H as (l5 & l6 & -> & H & _). apply seq_member in H as (v' & -> & _). apply (f_equal (@length _)) in E. rewrite !app_length in E. cbn in E. lia.
Qed.

(** A member named by a socket gets an unexported field, which is not written. *)
Theorem C82_private_refuted : Strays d_private (str "a") Proper.
Proof.
  astray (VStruct [VStruct []; VInt 1]) (CArray []). split; [proper|]. split; [reveal; enc|]. intros H. therule H.
  apply array_inv in H as (l & E & H). injection E as <-. apply elems_inv in H as (l1 & l2 & E & H & _). apply seq_member in H as (v & -> & _). discriminate E.
Qed.

(** A nil slice is written as null. *)
Theorem C82_nil_refuted : Strays d_bytes (str "a") (fun v => v = VSlice None).
Proof.
  astray (VSlice None) CNull. split; [reflexivity|]. split; [reveal; enc|]. intros H. therule H. inversion H; subst. match goal with H : In _ _ |- _ => simpl in H; intuition discriminate end.
Qed.

(** A Go string need not be UTF-8, a CBOR text string must be. *)
Theorem C82_utf8_refuted : Strays d_text (str "a") (fun v => v = VString [255]).
Proof.
  astray (VString [255]) (CText [255]). split; [reflexivity|]. split; [reveal; enc|]. intros H. therule H. inversion H as [| | | |? ? _ HU| | | | | | | | | | | | | |]; subst.
  inversion HU as [|? ? HB _|r s HS HR _ E]; subst; [lia|]. unfold encodeRune in E.
  repeat match type of E with context [if ?b then _ else _] => destruct b eqn:?; [try discriminate E|] end.
  all: cbn in E; try discriminate E. all: unfold scalar in HS; lia.
Qed.

(** An optional member is always written. *)
Theorem C83_optional_refuted : Lacks d_opt (str "point") Fits.
Proof.
  exists (declsOf (printDoc d_opt)), (str "Point"), (CArray [CInt 1]).
  split; [apply compiles_by; vm_compute; reflexivity|]. split; [exact (goName_ok (str "point") ltac:(discriminate))|]. split; [|split].
  - eapply mt_name; [now left|reflexivity|]. shape. apply mt_array. apply (me_cons _ _ _ _ _ [CInt 1] []).
    + apply ms_member, mt_int. inrange.
    + apply (me_cons _ _ _ _ _ [] []); [apply ms_none|apply me_nil].
  - repeat first [apply ft_array|apply ft_int; inrange|apply fa_cons|apply fa_nil].
  - intros v _ H. revert H. reveal. intros H. inversion H as [| | | | |doc n e ? ? HI HE| | | |]; subst.
    destruct HI as [HI|[HI|[]]]; [|discriminate HI]. injection HI as <- <-. inversion HE as [| | | | | | | | |fs vs l cs _ HL HC]; subst.
    inversion HL as [|? ? ? ? ? ? ? ? HX|? ? ? ? ? ? ? ? _ HL1| | |]; subst; [vm_compute in HX; destruct HX as [_ HX]; now apply HX|].
    inversion HL1 as [|? ? ? ? ? ? ? l1 _ HL2|? ? ? ? ? ? ? ? HX| | |]; subst; [|exfalso; apply HX; vm_compute; split; discriminate].
    inversion HL2 as [|? ? ? ? ? ? ? l2 _ HL3|? ? ? ? ? ? ? ? HX| | |]; subst; [|exfalso; apply HX; vm_compute; split; discriminate].
    inversion HL3; subst. vm_compute in HC. inversion HC as [|? ? ? ? _ HC']; subst. inversion HC'.
Qed.

(** An int of CDDL need not be one of Go. *)
Theorem C83_range_refuted : Lacks d_int (str "a") (fun x => x = CInt (2 ^ 63)).
Proof.
  exists (declsOf (printDoc d_int)), (str "A"), (CInt (2 ^ 63)).
  split; [apply compiles_by; vm_compute; reflexivity|]. split; [exact a_name|]. split; [|split; [reflexivity|]].
  - eapply mt_name; [now left|reflexivity|]. shape. apply mt_int. inrange.
  - intros v HT H. revert HT H. reveal. intros HT H. inversion H as [| | | | |doc n e ? ? HI HE| | | |]; subst.
    destruct HI as [HI|[HI|[]]]; [|discriminate HI]. injection HI as <- <-. inversion HT as [| | | | |doc' n' e' ? HI' HT'| | |]; subst.
    destruct HI' as [HI'|[HI'|[]]]; [|discriminate HI']. injection HI' as <- <-. 
    inversion HE as [| | | | |? ? ? ? ? HJ _| | | |]; subst; [|destruct HJ as [HJ|[HJ|[]]]; discriminate HJ].
    inversion HT' as [| | | | |? ? ? ? HJ _| | |]; subst; [lia|destruct HJ as [HJ|[HJ|[]]]; discriminate HJ].
Qed.
