(** Property C16: documents parse to their tree. The documents, their spelling
    and their trees are defined in Doc.v. *)
From Coq Require Import String.
From Verif Require Import Base Utf8 Token Ext Strconv StrconvSpec StrconvProofs LexSpec LexSpec2 Lexer LexerProofs LexOne LexSeq LexHang LexWords
  Ast Env Diag Parser ParseSpec ParseStream ParseFacts ParseTop ParseSource Doc DocProofs DocText Props_Lexer Props_Parser.
Open Scope string_scope.
Open Scope list_scope.
Open Scope Z_scope.

(** ** C16 *)

(** The references of [d] are defined in [d] or in [e], and nothing is defined
    twice. *)
Definition resolved (e : environment) (d : doc) : Prop :=
  NoDup (names e ++ map fst (docDefs d)) /\ forall w, In w (docRefs d) -> bound e w \/ In w (map fst (docDefs d)).

(** The parse of [s] in [e] reports nothing, and up to positions the tree is that
    of [d] and the environment is [e] with the definitions of [d]. *)
Definition parsesAs (X : Ext) (s : bytes) (e : environment) (d : doc) : Prop :=
  exists root p' defs, clean X s e root p' /\ strip root = docTree d /\
    env p' = e ++ defs /\ map (fun b => (fst b, strip (snd b))) defs = docDefs d.

(** Whatever the layout of the source: its tokens are the lexemes of [d]. *)
Theorem C16_any_layout : forall X s e d ts eof p t2 l2, decodable s -> envOk e -> wfDoc X d -> resolved e d ->
  tokens X s ts eof -> scans X 2 (newLexer s) = Ok (t2, l2) -> errors l2 = [] ->
  Laid p ts (showDoc d) -> parsesAs X s e d.
Proof.
  intros X s e d ts eof p t2 l2 D HE HW [HN HR] HT HS2 HErr HL.
  assert (HEof : tTok eof = EOF) by (eapply str_eofTok; eauto).
  destruct (rules_ok X (dRules d) (dFinal d) true p ts eof HL (proj1 HW) HEof) as (rules & tk & defs & K1 & K2 & K3 & K4).
  assert (HD : names defs = map fst (docDefs d)).
  { unfold docDefs. unfold ruleDefs in K4. rewrite <- K4, map_map. reflexivity. }
  destruct (proj2 (C17_accepts_iff X s e rules defs D HE)) as (p' & C1 & C2).
  { exists ts, eof, tk, t2, l2. repeat (split; auto).
    - unfold names in *. rewrite map_app, HD. exact HN.
    - eapply Forall_impl; [|exact K3]. intros t (w & q & -> & Hw). constructor. unfold bound, names in *. rewrite map_app, HD. apply in_or_app.
      destruct (HR w Hw); auto. }
  exists (NCDDL zeroPos rules), p', defs. split; auto. split; [|split; auto]. simpl. unfold docTree. now rewrite K2.
Qed.

Lemma str_scans_ok : forall X l ts f, Str X l ts f -> forall eof n, f = FEof eof -> exists us l', scans X n l = Ok (us, l').
Proof.
  intros X l ts f H. induction H; intros eof n E.
  - destruct n; [eexists; eexists; reflexivity|]. destruct (IHStr eof n E) as (us & l2 & K). cbn [scans]. rewrite H. cbn [rbind]. rewrite K. cbn [rbind]. eauto.
  - discriminate.
  - destruct (H0 n) as (l' & K). eauto.
Qed.

(** Texts with blanks between the lexemes. *)
Theorem C16_written : forall X s e d, envOk e -> wfDoc X d -> resolved e d -> writes s (showDoc d) -> parsesAs X s e d.
Proof.
  intros X s e d HE HW HR H. destruct (writes_tokens X s _ H) as (ts & eof & K1 & K2). destruct H as (items & H1 & H2).
  pose proof (spaced_good _ _ H1) as D. destruct (str_scans_ok _ _ _ _ K1 eof 2%nat eq_refl) as (t2 & l2 & E).
  destruct (C06_spaced_no_errors X s items 2 t2 l2 H1 E) as [K3 _]. eapply C16_any_layout; eauto.
Qed.

(** Printing and parsing. *)
Theorem C16_round_trip : forall X e d, envOk e -> wfDoc X d -> resolved e d -> parsesAs X (printDoc d) e d.
Proof. intros X e d HE HW HR. apply C16_written; auto. eapply printDoc_writes; eauto. Qed.

(** A document with every construct, in the notation of this printer:
<<
 ; people
 person = { name : tstr , ; given
  age : uint .size 2 ,
 ; own line
 ? boss : person , kind : & colour , 7 => [ * person , 2 * num : 0x10 .. 20 , ( a : # , ) ] }
 colour = ( red : 1 , green : 2.5 )
 pair = # 6.32 ( tstr .regexp "a b" / nil // ~ person )
 $ext //= int .lt 5
 ; the
 ; end
>> *)
Definition nm (w : string) (e : expr) (tc : option bytes) : expr := XMember (KName (str w)) false e tc.
Definition rf (w : string) : expr := XAtom (AName (str w)).
Definition ty (t : token) : expr := XAtom (AType t).
Definition nu (w : string) (v : Z) : expr := XAtom (AInt (str w) v).

Definition sampleD : doc := mkDoc
  [ ([str " people"], mkDRule (str "person") ASSIGN (XBracket BMap
      (ECons [] (nm "name" (ty TSTR) (Some (str " given"))) true
      (ECons [] (nm "age" (XInfix (ty UINT) OSize (nu "2" 2)) None) true
      (ECons [str " own line"] (XPrefix PreOpt (nm "boss" (rf "person") None)) true
      (ECons [] (nm "kind" (XPrefix PreEnum (rf "colour")) None) true
      (ECons [] (XMember (KNum (str "7") 7) true (XBracket BArray
         (ECons [] (XPrefix PreStar (rf "person")) true
         (ECons [] (XInfix (nu "2" 2) (OTimes false) (nm "num" (XInfix (nu "0x10" 16) (ORange false) (nu "20" 20)) None)) true
         (ECons [] (XBracket BGroup (ECons [] (nm "a" (XTag TgNone) None) true ENil)) false ENil)))) None) false ENil)))))));
    ([], mkDRule (str "colour") ASSIGN (XBracket BGroup
      (ECons [] (nm "red" (nu "1" 1) None) true
      (ECons [] (nm "green" (XAtom (AFloat (str "2.5") 7)) None) false ENil))));
    ([], mkDRule (str "pair") ASSIGN (XTagged (TgNumber (str "6") 6 (str "32") 32)
      (XInfix (ty TSTR) ORegexp (XInfix (XAtom (AText (str "a b"))) (OChoice false)
        (XInfix (ty NIL) (OChoice true) (XPrefix PreUnwrap (rf "person")))))));
    ([], mkDRule (str "$ext") GROUP_CHOICE_ASSIGN (XInfix (ty INT) (OCompare LT) (nu "5" 5)))]
  [str " the"; str " end"].

(** Reading floats: for the example a constant. *)
Definition X1 : Ext := mkExt (fun _ => false) (fun _ => false) (fun _ => Some 7).

Lemma name_by : forall w, (match w with
    | c :: w' => (((97 <=? c) && (c <=? 122)) || (c =? 36)) && forallb (fun x => (97 <=? x) && (x <=? 122)) w' &&
                 forallb (fun kt => negb (beq (fst kt) w)) keywordTable
    | [] => false end) = true -> wfName w.
Proof.
  intros [|c w] H; [discriminate|]. rewrite !andb_true_iff, !forallb_forall in H. destruct H as [[H1 H2] H3]. apply lx_word.
  - unfold identStart. lia.
  - apply Forall_forall. intros x Hx. apply H2 in Hx. unfold identChar, identStart. lia.
  - right. split; auto. intros t Ht. apply H3 in Ht. simpl in Ht.
    assert (K : beq (c :: w) (c :: w) = true) by (apply EnvProofs.beq_iff; auto). simpl in K. rewrite K in Ht. discriminate.
Qed.

Lemma int_by : forall w v, forallb (fun x => (48 <=? x) && (x <=? 57)) w = true -> w <> [] -> parseUint w = inr v -> wfInt w v.
Proof.
  intros w v H1 H2 H3. split; [|apply parseUint_iff in H3; tauto]. apply lx_int; auto. apply Forall_forall. intros x Hx.
  rewrite forallb_forall in H1. apply H1 in Hx. unfold digit. lia.
Qed.

Lemma comment_by : forall w, forallb (fun c => (0 <=? c) && (c <? 128) && negb (c =? 10)) w = true -> wfComment w.
Proof.
  intros w H. rewrite forallb_forall in H. split.
  - apply good_by_ascii, forallb_forall. intros x Hx. apply H in Hx. lia.
  - intros K. apply H in K. discriminate.
Qed.

Lemma digits_by : forall w, forallb (fun x => (48 <=? x) && (x <=? 57)) w = true -> Forall digit w.
Proof. intros w H. rewrite forallb_forall in H. apply Forall_forall. intros x Hx. apply H in Hx. unfold digit. lia. Qed.

Lemma hex_by : forall w, forallb (fun x => (48 <=? x) && (x <=? 57)) w = true -> lexeme INT (48 :: 120 :: w) (48 :: 120 :: w).
Proof. intros w H. apply lx_hex. eapply Forall_impl; [|apply (digits_by _ H)]. intros a K. left. exact K. Qed.

Lemma numeral_by : forall w v, parseUint w = inr v -> Numeral w v.
Proof. intros w v H. apply parseUint_iff in H. tauto. Qed.

Ltac wf_by :=
  repeat (cbn [fst snd]; match goal with
    | |- _ /\ _ => split
    | |- Forall _ (_ :: _) => constructor
    | |- Forall _ [] => constructor
    | |- True => exact I
    | |- wfRule _ _ => unfold wfRule; cbn [rName rAssign rBody]
    | |- wfComment _ => apply comment_by; vm_compute; reflexivity
    | |- wfName _ => apply name_by; vm_compute; reflexivity
    | |- assignTok _ => unfold assignTok; auto
    | |- wfAtom _ _ => cbn [wfAtom]
    | |- wfKey _ => cbn [wfKey]
    | |- wfTag _ => cbn [wfTag]
    | |- wfOper _ _ _ => cbn [wfOper]
    | |- wf _ (XAtom _) => cbn [wf wfAtom]
    | |- wf _ (XTag _) => cbn [wf wfTag]
    | |- wf _ (XTagged _ _) => cbn [wf wfTag]
    | |- wf _ (XBracket _ _) => cbn [wf]
    | |- wf _ (XPrefix _ _) => cbn [wf]
    | |- wf _ (XInfix _ _ _) => cbn [wf wfOper]
    | |- wf _ (XMember _ _ _ _) => cbn [wf wfKey]
    | |- wfElems _ _ _ => cbn [wfElems]
    | |- wfInt _ _ => split
    | |- lexeme INT _ _ => first [apply lx_int; [discriminate|apply digits_by; reflexivity] | apply hex_by; reflexivity]
    | |- lexeme FLOAT _ _ => apply (lx_float [50] [53]); [discriminate|discriminate|apply digits_by; reflexivity|apply digits_by; reflexivity]
    | |- lexeme TEXT_LITERAL _ _ => apply lx_text; [apply good_by_ascii; reflexivity|simpl; intuition discriminate|simpl; intuition discriminate]
    | |- Numeral _ _ => apply numeral_by; reflexivity
    | |- Forall digit _ => apply digits_by; reflexivity
    | |- mayFollow _ _ _ => let K := fresh in split; [intros K; first [discriminate K|reflexivity]|intros K; first [discriminate K|intros K'; first [discriminate K'|simpl; intuition discriminate]]]
    | |- In _ _ => simpl; tauto
    | |- exists k, XAtom _ = _ /\ In _ _ => eexists; split; [reflexivity|simpl; tauto]
    | |- exists w v, XAtom _ = _ => do 2 eexists; reflexivity
    | |- _ = true -> _ = true => intros _; reflexivity
    | |- _ \/ _ => (left; do 4 eexists; split; reflexivity)
    | |- primary _ = true => reflexivity
    | |- spine _ = None => reflexivity
    | |- leadsInt _ = _ => reflexivity
    | |- _ \/ _ -> leadsInt _ = _ => reflexivity
    end);
  try reflexivity; try lia; try discriminate; try (intros; discriminate).

Lemma sampleD_wf : wfDoc X1 sampleD.
Proof. unfold wfDoc, sampleD, nm, rf, ty, nu. cbn [dRules dFinal]. wf_by. Qed.

Example C16_ex : wfDoc X1 sampleD /\ resolved [] sampleD /\ (60 < length (showDoc sampleD))%nat /\
  parsesAs X1 (printDoc sampleD) [] sampleD.
Proof.
  assert (HR : resolved [] sampleD).
  { split.
    - vm_compute. repeat (constructor; [simpl; intuition discriminate|]). constructor.
    - intros w Hw. right. vm_compute in Hw |- *. intuition. }
  split; [exact sampleD_wf|]. split; [exact HR|]. split; [apply Nat.ltb_lt; reflexivity|].
  apply C16_round_trip; auto using sampleD_wf. split; constructor.
Qed.

(** Computed directly. *)
Example C16_ex_run : match parse X1 (printDoc sampleD) with
  | Ok ((Some root, None), _) => strip root = docTree sampleD
  | _ => False
  end.
Proof. vm_compute. reflexivity. Qed.
