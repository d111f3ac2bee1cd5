(** Property C93: what the syntax tree keeps of a document. *)
From Coq Require Import String.
From Verif Require Import Base Utf8 Token Ext Lexer LexSpec LexSpec2 StrconvSpec Strconv StrconvProofs Ast Env Diag Parser Doc DocText ParseSpec ParseSource
  Props_Lexer Props_Parser Props_Doc Props_Tree.
Open Scope string_scope.
Open Scope list_scope.
Open Scope Z_scope.

(** ** Specification *)

(** Documents without what is forgotten. Numbers get one spelling, for floats a given one;
    [0* x] becomes [* x] and [1+ x] becomes [+ x]; the left operands of comparisons become int;
    [=>] becomes [:]; every element has a comma and none has comments on lines before it. Kept
    are comments before rules and those on the lines of members. *)
Section Forget.
  Variable spell : Z -> bytes.

  Definition forgetAtom (a : atom) : atom :=
    match a with
    | AInt _ v => AInt (fmtD v) v
    | AFloat _ b => AFloat (spell b) b
    | _ => a
    end.
  Definition forgetTag (g : tagno) : tagno :=
    match g with
    | TgNone => TgNone
    | TgMajor _ v => TgMajor (fmtD v) v
    | TgNumber _ va _ vb => TgNumber (fmtD va) va (fmtD vb) vb
    end.
  Definition forgetKey (k : keyName) : keyName := match k with KName w => KName w | KNum _ v => KNum (fmtD v) v end.

  Definition times (plus : bool) (v : Z) (r : expr) : expr :=
    if v =? (if plus then 1 else 0) then XPrefix (if plus then PrePlus else PreStar) r
    else XInfix (XAtom (AInt (fmtD v) v)) (OTimes plus) r.

  Fixpoint forget (e : expr) : expr :=
    match e with
    | XAtom a => XAtom (forgetAtom a)
    | XTag g => XTag (forgetTag g)
    | XTagged g e => XTagged (forgetTag g) (forget e)
    | XBracket b es => XBracket b (forgets es)
    | XPrefix p e => XPrefix p (forget e)
    | XInfix l o r =>
      match o, l with
      | OCompare t, _ => XInfix (XAtom (AType INT)) (OCompare t) (forget r)
      | OTimes plus, XAtom (AInt _ v) => times plus v (forget r)
      | _, _ => XInfix (forget l) o (forget r)
      end
    | XMember k _ v tc => XMember (forgetKey k) false (forget v) tc
    end
  with forgets (es : elems) : elems :=
    match es with
    | ENil => ENil
    | ECons _ e _ r => ECons [] (forget e) true (forgets r)
    end.

  (** The kind of the assignment is forgotten. *)
  Definition forgetRule (r : rule) : rule := mkDRule (rName r) ASSIGN (forget (rBody r)).
  Definition forgetDoc (d : doc) : doc := mkDoc (map (fun r => (fst r, forgetRule (snd r))) (dRules d)) (dFinal d).
End Forget.

(** ** From trees to documents *)

Section Untree.
  Variable spell : Z -> bytes.

  Definition unkey (w : bytes) : keyName :=
    match w with
    | c :: _ => if (48 <=? c) && (c <=? 57) then KNum w (match parseInt w with inr v => v | inl _ => 0 end) else KName w
    | [] => KName w
    end.
  Definition untag (a b : option uintLit) : tagno :=
    match a, b with
    | Some u, Some u' => TgNumber (fmtD (uVal u)) (uVal u) (fmtD (uVal u')) (uVal u')
    | Some u, None => TgMajor (fmtD (uVal u)) (uVal u)
    | _, _ => TgNone
    end.

  Fixpoint untree (n : node) : expr :=
    let many := fix many (l : list node) : elems := match l with [] => ENil | x :: r => ECons [] (untree x) true (many r) end in
    match n with
    | NIdentifier i => XAtom (AName (iName i))
    | NBooleanType _ t | NTstrType _ t | NFloatType _ t _ | NUintType _ t | NIntegerType _ t | NNegativeIntegerType _ t | NBstrType _ t | NBytesType _ t
    | NNullType _ t => XAtom (AType t)
    | NBooleanLiteral _ b => XAtom (ABool b)
    | NIntegerLiteral _ _ v => XAtom (AInt (fmtD v) v)
    | NFloatLiteral _ _ b => XAtom (AFloat (spell b) b)
    | NTextLiteral _ _ w => XAtom (AText w)
    | NTag _ _ a b NNil => XTag (untag a b)
    | NTag _ _ a b i => XTagged (untag a b) (untree i)
    | NGroup _ l => XBracket BGroup (many l)
    | NArray _ l => XBracket BArray (many l)
    | NMap _ _ l => XBracket BMap (many l)
    | NOptional _ _ i => XPrefix PreOpt (untree i)
    | NUnwrap _ _ i => XPrefix PreUnwrap (untree i)
    | NEnumeration _ _ i => XPrefix PreEnum (untree i)
    | NNMOccurrence _ t (Some u) _ i => times (teq t ONE_OR_MORE) (uVal u) (untree i)
    | NTypeChoice _ t a b => XInfix (untree a) (OChoice (teq t GROUP_CHOICE)) (untree b)
    | NComparator _ t _ _ b => XInfix (XAtom (AType INT)) (OCompare t) (untree b)
    | NSizeOp _ _ s ty => XInfix (untree ty) OSize (untree s)
    | NRegexp _ _ (Some pk) r => XInfix (XAtom (AType (snd pk))) ORegexp (untree r)
    | NBits _ _ a b => XInfix (untree a) OBits (untree b)
    | NRange _ t a b => XInfix (untree a) (ORange (teq t EXCLUSIVE_BOUND)) (untree b)
    | NEntry _ i v tc => XMember (unkey (iName i)) false (untree v) (option_map cText tc)
    | _ => XAtom (AType NULL)
    end.
  Fixpoint untrees (l : list node) : elems := match l with [] => ENil | x :: r => ECons [] (untree x) true (untrees r) end.
End Untree.

Lemma tree_not_nil : forall e, tree e <> NNil.
Proof.
  intros [[]|[]|[]|[]|[]|? [[]|?| | | |[]|[]] ?|]; cbn; try discriminate. intros H. now destruct t.
Qed.

Lemma many_untrees : forall sp l, (fix many (l : list node) : elems := match l with [] => ENil | x :: r => ECons [] (untree sp x) true (many r) end) l = untrees sp l.
Proof. intros sp. induction l as [|x l IH]; cbn; congruence. Qed.

Lemma name_start : forall w, wfName w -> unkey w = KName w.
Proof.
  intros w H. unfold wfName in H. unfold unkey. inversion H; subst; auto.
  - match goal with K : identStart _ |- _ => unfold identStart in K; destruct ((48 <=? c) && (c <=? 57)) eqn:E; auto; lia end.
  - match goal with K : In _ punctTable |- _ => cbn in K; intuition congruence end.
Qed.
Lemma unkey_num : forall v, 0 <= v < 2 ^ 63 -> unkey (fmtD v) = KNum (fmtD v) v.
Proof.
  intros v H. destruct (fmt_numeral v ltac:(lia)) as (_ & K & N). unfold unkey. rewrite C46_round_trip by lia. destruct (fmtD v) as [|c w]; [congruence|].
  inversion K; subst. replace ((48 <=? c) && (c <=? 57)) with true by lia. reflexivity.
Qed.

Lemma numeral_pos : forall w v, Numeral w v -> 0 <= v.
Proof. exact value_pos. Qed.

Lemma tag_untag : forall g, untag (match treeTag g NNil with NTag _ _ a _ _ => a | _ => None end) (match treeTag g NNil with NTag _ _ _ b _ => b | _ => None end) = forgetTag g.
Proof. now intros []. Qed.

Lemma untree_tag : forall sp g n, n <> NNil -> untree sp (treeTag g n) = XTagged (forgetTag g) (untree sp n).
Proof. intros sp [] n N; destruct n; try congruence; reflexivity. Qed.

Lemma untree_all : forall X sp, (forall e, wf X e -> untree sp (tree e) = forget sp e) /\ (forall es g, wfElems X g es -> untrees sp (trees es) = forgets sp es).
Proof.
  intros X sp. apply expr_elems_ind.
  - intros [w|t|b|w v|w b|w] H; cbn in *; try reflexivity. repeat (destruct H as [<-|H]; [reflexivity|]). contradiction.
  - intros [] H; reflexivity.
  - intros g e IH [H1 H2]. cbn [tree forget]. rewrite untree_tag by apply tree_not_nil. now rewrite IH.
  - intros b es IH H. cbn [tree forget wf] in *. destruct b; cbn [treeBracket untree]; rewrite many_untrees, (IH _ H); reflexivity.
  - intros p e IH [H _]. cbn [tree forget]. rewrite <- (IH H). destruct p; reflexivity.
  - intros l IHl o r IHr (HP & HL & HR & HO). cbn [tree]. specialize (IHl HL). specialize (IHr HR). destruct o as [b|t| | | |b|b]; cbn [treeInfix opTok untree forget]; rewrite IHr.
    + rewrite IHl. now destruct b.
    + reflexivity.
    + now rewrite IHl.
    + destruct HO as [(k & -> & HK) _]. destruct HK as [<-|[<-|[]]]; reflexivity.
    + now rewrite IHl.
    + destruct HO as [(w & v & ->) _]. cbn. now destruct b.
    + rewrite IHl. now destruct b.
  - intros k a v IH tc (HK & HV & _). cbn [tree forget untree iName]. rewrite (IH HV). f_equal.
    + destruct k as [w|w n]; cbn [treeKey iName forgetKey]; [now apply name_start|]. destruct HK as [[_ HN] HB]. apply unkey_num. split; auto. eapply numeral_pos; eauto.
    + now destruct tc.
  - intros. reflexivity.
  - intros lead e IH comma r IHr g (_ & HE & _ & _ & HR). cbn [trees untrees forgets]. now rewrite IH, (IHr g).
Qed.

(** Forgetting does not change the tree. *)
Lemma tree_forget : forall sp, (forall e, tree (forget sp e) = tree e) /\ (forall es, trees (forgets sp es) = trees es).
Proof.
  intros sp. apply expr_elems_ind.
  - now intros [].
  - now intros [].
  - intros g e IH. cbn [forget tree]. rewrite IH. now destruct g.
  - intros b es IH. change (treeBracket b (trees (forgets sp es)) = treeBracket b (trees es)). now rewrite IH.
  - intros p e IH. cbn [forget tree]. now rewrite IH.
  - intros l IHl o r IHr.
    assert (K : tree (XInfix (forget sp l) o (forget sp r)) = tree (XInfix l o r)) by (cbn [tree]; now rewrite IHl, IHr).
    destruct o as [b|t| | | |b|b]; try exact K.
    destruct l as [[]| | | | | |]; try exact K. change (tree (times b v (forget sp r)) = treeInfix (OTimes b) (NIntegerLiteral z INT v) (tree r)). rewrite <- IHr. unfold times.
      destruct (v =? _) eqn:E; [apply Z.eqb_eq in E; subst v|]; now destruct b.
  - intros k a v IH tc. cbn [forget tree]. rewrite IH. now destruct k.
  - reflexivity.
  - intros lead e IH comma r IHr. change (tree (forget sp e) :: trees (forgets sp r) = tree e :: trees r). now rewrite IH, IHr.
Qed.

(** ** Rules *)

Lemma comments_inj : forall a b ra rb, (forall c l, ra <> NComment c :: l /\ forall cs, ra <> NCommentGroup cs :: l) -> (forall c l, rb <> NComment c :: l /\ forall cs, rb <> NCommentGroup cs :: l) ->
  treeComments a ++ ra = treeComments b ++ rb -> a = b /\ ra = rb.
Proof.
  assert (KM : forall a b, map treeComment a = map treeComment b -> a = b).
  { induction a as [|x a IH]; intros [|y b] H; cbn in H; try discriminate; auto. injection H as -> H. f_equal. auto. }
  intros a b ra rb HA HB H. destruct a as [|x [|x' a]], b as [|y [|y' b]]; cbn [treeComments app] in H; auto.
  - exfalso. symmetry in H. revert H. rewrite <- (app_nil_l (NComment _ :: _)). cbn. intros E. symmetry in E. exact (proj1 (HA _ _) E).
  - exfalso. exact (proj2 (HA (treeComment y) _) _ H).
  - exfalso. symmetry in H. exact (proj1 (HB _ _) H).
  - injection H as -> ->. auto.
  - discriminate.
  - exfalso. symmetry in H. exact (proj2 (HB (treeComment x) _) _ H).
  - discriminate.
  - injection H as E1 E2 E3 ->. subst. apply KM in E3. subst. auto.
Qed.

Lemma rules_inj : forall X sp rs rs' fin fin', Forall (fun r => wfRule X (snd r)) rs -> Forall (fun r => wfRule X (snd r)) rs' -> treeRules rs fin = treeRules rs' fin' ->
  map (fun r => (fst r, forgetRule sp (snd r))) rs = map (fun r => (fst r, forgetRule sp (snd r))) rs' /\ fin = fin'.
Proof.
  intros X sp. induction rs as [|[lead r] rs IH]; intros [|[lead' r'] rs'] fin fin' F F' H; cbn [treeRules] in H.
  - rewrite <- (app_nil_r (treeComments fin)), <- (app_nil_r (treeComments fin')) in H. apply comments_inj in H; [destruct H; auto|..]; repeat split; discriminate.
  - rewrite <- (app_nil_r (treeComments fin)) in H. apply comments_inj in H; [destruct H; discriminate|..]; repeat split; discriminate.
  - rewrite <- (app_nil_r (treeComments fin')) in H. apply comments_inj in H; [destruct H; discriminate|..]; repeat split; discriminate.
  - apply comments_inj in H; [|repeat split; discriminate|repeat split; discriminate]. destruct H as [-> H]. injection H as E1 E2 E3. inversion F as [|? ? F1 F2]; inversion F' as [|? ? F1' F2']; subst.
    destruct (IH _ _ _ F2 F2' E3) as [E4 ->]. split; auto. cbn [map fst snd]. f_equal; auto. f_equal. unfold forgetRule. destruct F1 as (_ & _ & W & _), F1' as (_ & _ & W' & _). cbn [snd] in *.
    rewrite <- (proj1 (untree_all X sp) _ W), <- (proj1 (untree_all X sp) _ W'), E2, E1. reflexivity.
Qed.

Lemma doc_forget : forall sp d, docTree (forgetDoc sp d) = docTree d.
Proof.
  intros sp d. unfold docTree, forgetDoc. cbn [dRules dFinal]. f_equal. induction (dRules d) as [|[lead r] rs IH]; cbn [map treeRules fst snd]; [reflexivity|]. rewrite IH. cbn [forgetRule rName rBody]. now rewrite (proj1 (tree_forget sp)).
Qed.

(** ** Theorems *)

(** Documents have the same tree if and only if they differ in nothing but what is forgotten. *)
Theorem C93_forgets : forall X sp d d', wfDoc X d -> wfDoc X d' -> (docTree d = docTree d' <-> forgetDoc sp d = forgetDoc sp d').
Proof.
  intros X sp d d' [W _] [W' _]. split; intros H.
  - unfold docTree in H. injection H as H. apply (rules_inj X sp) in H.
    + destruct H as [H1 H2]. unfold forgetDoc. now rewrite H1, H2.
    + eapply Forall_impl; [|exact W]. intros r [_ K]. exact K.
    + eapply Forall_impl; [|exact W']. intros r [_ K]. exact K.
  - now rewrite <- (doc_forget sp d), <- (doc_forget sp d'), H.
Qed.

(** For sources of documents. *)
Theorem C93_sources : forall X sp s s' e e' d d' t p t' p', wfDoc X d -> wfDoc X d' -> parsesAs X s e d -> parsesAs X s' e' d' ->
  clean X s e t p -> clean X s' e' t' p' -> (strip t = strip t' <-> forgetDoc sp d = forgetDoc sp d').
Proof.
  intros X sp s s' e e' d d' t p t' p' W W' (t1 & p1 & ? & C1 & T1 & _) (t2 & p2 & ? & C2 & T2 & _) C C'.
  unfold clean in *. rewrite C1 in C. injection C as <- <-. rewrite C2 in C'. injection C' as <- <-. rewrite T1, T2. now apply C93_forgets with (X := X).
Qed.

(** The tree is enough to write the document again, without what is forgotten. *)
Fixpoint unrules (sp : Z -> bytes) (lead : list bytes) (l : list node) : doc :=
  match l with
  | [] => mkDoc [] lead
  | NComment c :: r => unrules sp [cText c] r
  | NCommentGroup cs :: r => unrules sp (map cText cs) r
  | NRule _ i v _ :: r => let d := unrules sp [] r in mkDoc ((lead, mkDRule (iName i) ASSIGN (untree sp v)) :: dRules d) (dFinal d)
  | _ :: r => unrules sp lead r
  end.
Definition undoc (sp : Z -> bytes) (t : node) : doc := match t with NCDDL _ l => unrules sp [] l | _ => mkDoc [] [] end.

Lemma undoc_forget : forall X sp d, wfDoc X d -> undoc sp (docTree d) = forgetDoc sp d.
Proof.
  intros X sp d [W _]. unfold undoc, docTree, forgetDoc.
  assert (KC : forall l r, (forall c q, r <> NComment c :: q /\ forall cs, r <> NCommentGroup cs :: q) -> unrules sp [] (treeComments l ++ r) = unrules sp l r).
  { intros [|c [|c' l]] r _; auto. cbn [treeComments app unrules]. f_equal. cbn [map treeComment cText]. do 2 f_equal. rewrite map_map. apply map_id. }
  assert (K : forall rs fin, Forall (fun r => Forall wfComment (fst r) /\ wfRule X (snd r)) rs -> unrules sp [] (treeRules rs fin) = mkDoc (map (fun r => (fst r, forgetRule sp (snd r))) rs) fin).
  { induction rs as [|[lead r] rs IH]; intros fin F; cbn [treeRules map fst snd].
    - rewrite <- (app_nil_r (treeComments fin)), KC; [reflexivity|repeat split; discriminate].
    - inversion F as [|? ? [_ (_ & _ & W1 & _)] F2]; subst. rewrite KC by (repeat split; discriminate). cbn [unrules]. rewrite (IH fin F2). cbn [dRules dFinal iName]. cbn [snd] in W1. now rewrite (proj1 (untree_all X sp) _ W1). }
  now apply K.
Qed.

Lemma refs_forget : forall sp, (forall e w, In w (refs (forget sp e)) -> In w (refs e)) /\ (forall es w, In w (refsElems (forgets sp es)) -> In w (refsElems es)).
Proof.
  intros sp. apply expr_elems_ind.
  - now intros [].
  - now intros [].
  - intros g e IH w H. exact (IH w H).
  - intros b es IH w H. exact (IH w H).
  - intros p e IH w H. exact (IH w H).
  - intros l IHl o r IHr w H. change (In w (refs l ++ refs r)). apply in_or_app.
    assert (K : In w (refs (forget sp l) ++ refs (forget sp r)) -> In w (refs l) \/ In w (refs r)) by (intros K; apply in_app_or in K; destruct K; auto).
    destruct o as [b|t| | | |b|b]; try exact (K H).
    + right. exact (IHr w H).
    + destruct l as [[]| | | | | |]; try exact (K H). right. apply IHr. change (In w (refs (times b v (forget sp r)))) in H. unfold times in H. destruct (v =? _); exact H.
  - intros k a v IH tc w H. change (In w (keyRef (forgetKey k) false ++ refs (forget sp v))) in H. change (In w (keyRef k a ++ refs v)). apply in_or_app. right. destruct k; exact (IH w H).
  - auto.
  - intros lead e IH comma r IHr w H. change (In w (refs (forget sp e) ++ refsElems (forgets sp r))) in H. change (In w (refs e ++ refsElems r)). apply in_app_or in H. apply in_or_app. destruct H; auto.
Qed.

Lemma forget_defs : forall sp rs, map fst (docDefs (mkDoc (map (fun r => (fst r, forgetRule sp (snd r))) rs) [])) = map (fun r => rName (snd r)) rs.
Proof. intros sp. induction rs as [|r rs IH]; [reflexivity|]. unfold docDefs in *. cbn [dRules map flat_map snd forgetRule rAssign rName] in *. change (teq ASSIGN ASSIGN) with true. cbn [app map fst]. f_equal. exact IH. Qed.

Lemma forget_resolved : forall sp d, NoDup (map (fun r => rName (snd r)) (dRules d)) -> resolved [] d -> resolved [] (forgetDoc sp d).
Proof.
  intros sp d N [_ H].
  assert (E : map fst (docDefs (forgetDoc sp d)) = map (fun r => rName (snd r)) (dRules d)) by (rewrite <- (forget_defs sp); reflexivity).
  split; [rewrite E; exact N|]. intros w HW. rewrite E. destruct (H w) as [B|B]; auto.
  - unfold docRefs, forgetDoc in *. cbn [dRules] in HW. apply in_flat_map in HW. destruct HW as (r & HR & HW). apply in_map_iff in HR. destruct HR as (r0 & <- & HR). apply in_flat_map. exists r0. split; auto. cbn [snd forgetRule rBody] in HW. now apply (refs_forget sp).
  - right. unfold docDefs in B. apply in_map_iff in B. destruct B as ([w' n] & <- & B). apply in_flat_map in B. destruct B as (r & HR & B). apply in_map_iff. exists r. split; auto. destruct (teq _ _); [destruct B as [B|[]]; now injection B|destruct B].
Qed.

Theorem C93_rewrite : forall X sp s d t p, wfDoc X d -> resolved [] d -> parsesAs X s [] d -> clean X s [] t p ->
  NoDup (map (fun r => rName (snd r)) (dRules d)) -> wfDoc X (undoc sp (strip t)) ->
  exists t' p', clean X (printDoc (undoc sp (strip t))) [] t' p' /\ strip t' = strip t.
Proof.
  intros X sp s d t p W R (t1 & p1 & ? & C1 & T1 & _) C N W'. unfold clean in *. rewrite C1 in C. injection C as <- <-. rewrite T1, (undoc_forget X) in * by auto.
  destruct (C16_round_trip X [] (forgetDoc sp d)) as (t' & p' & ? & C' & T' & _); auto; [split; constructor|now apply forget_resolved|].
  exists t', p'. rewrite doc_forget in T'. auto.
Qed.

(** ** Examples and refutations *)

(** <<
a = [ 0 * n : 0x10 , ; c
; d
b => int .lt 7 ] $s //= 1 .. 2
a = [ * n : 16 , ; c
b : uint .lt 7 ] $s = 1 .. 2
>> *)
Definition sp0 (b : Z) : bytes := str "2.5".
Definition before : doc := mkDoc
  [ ([], mkDRule (str "a") ASSIGN (XBracket BArray
      (ECons [] (XInfix (XAtom (AInt (str "0") 0)) (OTimes false) (XMember (KName (str "n")) false (XAtom (AInt (str "0x10") 16)) (Some (str " c")))) true
      (ECons [str " d"] (XMember (KName (str "a")) true (XInfix (ty INT) (OCompare LT) (nu "7" 7)) None) false ENil))));
    ([str " e"], mkDRule (str "$s") GROUP_CHOICE_ASSIGN (XInfix (nu "1" 1) (ORange false) (nu "0x2" 2)))] [].
Definition after : doc := mkDoc
  [ ([], mkDRule (str "a") ASSIGN (XBracket BArray
      (ECons [] (XPrefix PreStar (XMember (KName (str "n")) false (XAtom (AInt (str "16") 16)) (Some (str " c")))) true
      (ECons [] (XMember (KName (str "a")) false (XInfix (ty UINT) (OCompare LT) (nu "7" 7)) None) true ENil))));
    ([str " e"], mkDRule (str "$s") ASSIGN (XInfix (nu "1" 1) (ORange false) (nu "2" 2)))] [].

Lemma resolved_by : forall d, forallb (fun w => existsb (beq w) (map fst (docDefs d))) (docRefs d) = true -> NoDup (map fst (docDefs d)) -> resolved [] d.
Proof.
  intros d H N. split; auto. intros w HW. right. rewrite forallb_forall in H. apply H, existsb_exists in HW. destruct HW as (v & HV & E). apply EnvProofs.beq_iff in E. now subst.
Qed.

Example C93_ex : wfDoc X1 before /\ wfDoc X1 after /\ resolved [] before /\ resolved [] after /\ before <> after /\
  forgetDoc sp0 before = forgetDoc sp0 after /\ parsesAs X1 (printDoc before) [] before /\ parsesAs X1 (printDoc after) [] after /\
  wfDoc X1 (undoc sp0 (docTree before)) /\ NoDup (map (fun r => rName (snd r)) (dRules before)).
Proof.
  assert (W : wfDoc X1 before) by (unfold wfDoc, before, ty, nu; cbn [dRules dFinal]; wf_by).
  assert (W' : wfDoc X1 after) by (unfold wfDoc, after, ty, nu; cbn [dRules dFinal]; wf_by).
  assert (N : NoDup [str "a"; str "$s"]) by (repeat constructor; simpl; intuition discriminate).
  assert (R : resolved [] before) by (apply resolved_by; [reflexivity|repeat constructor; intros []]).
  assert (R' : resolved [] after) by (apply resolved_by; [reflexivity|exact N]).
  assert (E : envOk []) by (split; constructor).
  split; [exact W|]. split; [exact W'|]. split; [exact R|]. split; [exact R'|]. split; [discriminate|]. split; [vm_compute; reflexivity|].
  split; [now apply C16_round_trip|]. split; [now apply C16_round_trip|]. split; [|exact N].
  rewrite (undoc_forget X1) by auto. assert (F : forgetDoc sp0 before = mkDoc
    [ ([], mkDRule (str "a") ASSIGN (XBracket BArray
      (ECons [] (XPrefix PreStar (XMember (KName (str "n")) false (XAtom (AInt (str "16") 16)) (Some (str " c")))) true
      (ECons [] (XMember (KName (str "a")) false (XInfix (ty INT) (OCompare LT) (nu "7" 7)) None) true ENil))));
      ([str " e"], mkDRule (str "$s") ASSIGN (XInfix (nu "1" 1) (ORange false) (nu "2" 2)))] []) by (vm_compute; reflexivity).
  rewrite F. unfold wfDoc, ty, nu; cbn [dRules dFinal]; wf_by.
Qed.

(** The operators / and // are kept apart, though both give a TypeChoice. *)
Example C93_ex_kept : forgetDoc sp0 (mkDoc [([], mkDRule (str "a") ASSIGN (XInfix (ty INT) (OChoice true) (ty TSTR)))] []) <>
  forgetDoc sp0 (mkDoc [([], mkDRule (str "a") ASSIGN (XInfix (ty INT) (OChoice false) (ty TSTR)))] []).
Proof. discriminate. Qed.

(** Rules that extend a socket twice cannot be written again from the tree. *)
Definition extended : bytes := lines ["$s /= int"; "$s /= tstr"].
Definition extRoot : node := match parse X1 extended with Ok ((Some t, _), _) => t | _ => NNil end.
Definition extDoc : doc := mkDoc [([], mkDRule (str "$s") TYPE_CHOICE_ASSIGN (ty INT)); ([], mkDRule (str "$s") TYPE_CHOICE_ASSIGN (ty TSTR))] [].

Theorem C93_extend_refuted : wfDoc X1 extDoc /\ resolved [] extDoc /\ parsesAs X1 extended [] extDoc /\ (exists p, clean X1 extended [] extRoot p) /\
  forall t' p', ~ clean X1 (printDoc (undoc sp0 (strip extRoot))) [] t' p'.
Proof.
  assert (C : exists p, clean X1 extended [] extRoot p /\ env p = []) by (eexists; split; vm_compute; reflexivity).
  split; [unfold wfDoc, extDoc, ty; cbn [dRules dFinal]; wf_by|]. split; [apply resolved_by; [reflexivity|constructor]|].
  destruct C as (p & C & EP). split.
  { exists extRoot, p, []. split; [exact C|]. split; [vm_compute; reflexivity|]. split; [exact EP|reflexivity]. }
  split; [exists p; exact C|]. clear C EP p. intros t' p' C. unfold clean in C. set (s := printDoc (undoc sp0 (strip extRoot))) in *.
  assert (K : match parseSource X1 (parseFuel s) s [] with Ok ((Some _, None), _) => true | _ => false end = false) by (vm_compute; reflexivity).
  rewrite C in K. discriminate.
Qed.
