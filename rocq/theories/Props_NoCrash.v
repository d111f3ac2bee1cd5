(** Property C15: sources on which ParseFile cannot crash. *)
From Coq Require Import String.
From Verif Require Import Base Utf8 Token Ext Strconv Lexer LexSpec LexSpec2 LexerProofs LexOne LexSeq LexHang
  Ast Env Diag Parser ParseSpec ParseStream ParseFacts ParseSound ParseLoop ParseTop ParseSource ParseTree ParseNoPanic
  ParseTokens Props_Lexer Props_Parser.
Open Scope string_scope.
Open Scope list_scope.
Open Scope Z_scope.

Lemma start_is_body : forall b, isIdentifierStart b = true -> isIdentifierBodyChar b = true.
Proof.
  intros b H. unfold isIdentifierBodyChar. now rewrite H.
Qed.

(** Identifiers are not empty. *)
Lemma lexOne_ident : forall X suf text lit er, Good suf -> lexOne X suf = Some (IDENT, text, lit, er) -> lit <> [].
Proof.
  intros X suf text lit er G H. destruct suf as [|b t]; [discriminate|]. unfold lexOne in H.
  destruct (isIdentifierStart b) eqn:EI.
  - apply some4 in H as (_ & _ & H & _). rewrite <- H. cbn [takeB]. rewrite start_is_body by auto. discriminate.
  - destruct (isDigit b) eqn:ED.
    + destruct (lexNum X (b :: t)) as [tk a] eqn:EN. apply some4 in H as (_ & _ & H & _). rewrite <- H.
      destruct (lexNum_spec _ _ _ _ _ ED G EN) as (_ & HN & _). intros ->. apply HN. reflexivity.
    + destruct (punct b) as [tk|] eqn:EP.
      { apply some4 in H as (_ & _ & H & _). rewrite <- H. discriminate. }
      destruct (b =? 59); [apply some4 in H as (H & _); discriminate|].
      destruct (b =? 61); [destruct (hd 0 t =? 62); apply some4 in H as (H & _); discriminate|].
      destruct (b =? 47).
      { destruct (lexSlash t) as [tk a] eqn:E. apply some4 in H as (H & _). subst tk. unfold lexSlash in E.
        repeat match type of E with (if ?c then _ else _) = _ => destruct c end; discriminate. }
      destruct (b =? 46).
      { unfold lexDot in H. destruct (hd 0 t =? 46).
        - destruct (hd 0 (tl t) =? 46); apply some4 in H as (H & _); discriminate.
        - destruct (uniIsLetter X (hdR t)); [|apply some4 in H as (H & _); discriminate].
          apply some4 in H as (_ & _ & H & _). rewrite <- H. discriminate. }
      destruct (b =? 34); [|apply some4 in H as (H & _); discriminate].
      destruct (hd 0 (dropB inStr t) =? 34); [apply some4 in H as (H & _); discriminate|].
      destruct (takeB inStr t); [discriminate|apply some4 in H as (H & _); discriminate].
Qed.

(** ** C15 *)

(** The kinds of the last two tokens before a place, nearest first, and of the
    next two after it. EOF stands for a missing token. *)
Definition kindAt (l : list tokInfo) (n : nat) : token := nth n (map tTok l) EOF.

(** [quiet before t after]: the operator [t] cannot make the parser crash.

    - ".regexp" stands after the type "tstr" or "text";
    - "*" and "+" stand where an operand has to start, or after an operand of one
      token that is not the number of a tag;
    - ".bits" is followed by a name, and that by a comma or by no operator. *)
Definition quiet (before : list tokInfo) (t : tokInfo) (after : list tokInfo) : Prop :=
  match tTok t with
  | REGEXP => In (kindAt before 0) [TSTR; TEXT]
  | ZERO_OR_MORE | ONE_OR_MORE =>
    starter (kindAt before 0) = true \/
    (atomTok (kindAt before 0) = true /\ ~ (kindAt before 1 = HASH /\ In (kindAt before 0) [INT; FLOAT]))
  | BITS => kindAt after 0 = IDENT /\ (kindAt after 1 = COMMA \/ infixTok (kindAt after 1) = false)
  | _ => True
  end.

Definition Quiet (ts : list tokInfo) : Prop :=
  forall u t r, ts = u ++ t :: r -> quiet (rev u) t r.

(** No name is defined twice, or given in [e] as well. *)
Definition definedOnce (e : environment) (ts : list tokInfo) : Prop :=
  NoDup (defNames ts) /\ forall w, In w (defNames ts) -> ~ bound e w.

(** No comparison and no range operator, and every node of [e] has a position. *)
Definition startable (e : environment) (ts : list tokInfo) : Prop :=
  Forall (fun t => ~ In (tTok t) [LT; LE; GT; GE; EQ; NE; INCLUSIVE_BOUND; EXCLUSIVE_BOUND]) ts /\
  forall w n, In (w, n) e -> node_start n <> Panic.

Lemma quiet_calm : forall X s ts eof, decodable s -> tokens X s ts eof -> Quiet ts -> Calm ts eof.
Proof.
  intros X s ts eof D HS HQ u t r E. pose proof (HQ u t r E) as Q. unfold quiet, kindAt in Q.
  pose proof (str_eofTok _ _ _ _ HS) as HE.
  assert (HA : forall l n, (match n with O => tTok (nextOf l eof) | S _ => tTok (nextOf (tl l) eof) end) = nth (match n with O => 0 | S _ => 1 end) (map tTok l) EOF).
  { intros l [|n]; destruct l as [|a [|b l]]; simpl; auto. }
  split; [|split; [|split]].
  - intros EI. pose proof (source_tokens X s ts (FEof eof) D HS) as F. rewrite E in F.
    apply Forall_app in F as [_ F]. inversion F as [|? ? (suf & text & er & G & HL) _]; subst. rewrite EI in HL.
    eapply lexOne_ident; eauto.
  - intros ER. rewrite ER in Q. destruct (rev u) as [|a more]; auto. simpl in Q. intuition.
  - intros EO.
    assert (Q' : starter (nth 0 (map tTok (rev u)) EOF) = true \/
      (atomTok (nth 0 (map tTok (rev u)) EOF) = true /\
       ~ (nth 1 (map tTok (rev u)) EOF = HASH /\ In (nth 0 (map tTok (rev u)) EOF) [INT; FLOAT]))).
    { destruct EO as [EO|EO]; rewrite EO in Q; exact Q. }
    destruct (rev u) as [|a more]; auto. simpl in Q'. destruct Q' as [Q'|[Q1 Q2]]; auto. right. split; auto.
    destruct more as [|b more]; auto. simpl in Q2. intros [H1 H2]. apply Q2. split; auto. intuition.
  - intros EB. rewrite EB in Q. rewrite <- (HA r O), <- (HA r (S O)) in Q. exact Q.
Qed.

(** ParseFile returns. *)
Theorem C15_returns : forall X s e ts eof, decodable s -> tokens X s ts eof -> Quiet ts ->
  definedOnce e ts \/ startable e ts ->
  exists res p', parseSource X (parseFuel s) s e = Ok (res, p').
Proof.
  intros X s e ts eof D HS HQ HD.
  assert (HP : parseSource X (parseFuel s) s e <> Panic).
  { apply (source_np X s e (parseFuel s) ts eof); auto.
    - destruct (new_str X s D) as (ts' & f & k & HS' & _ & _ & HL & _).
      destruct (str_fun _ _ _ _ HS' _ _ HS) as [-> _]. unfold parseFuel. lia.
    - eapply quiet_calm; eauto.
    - destruct HD as [[H1 H2]|[H1 H2]]; [left; split; auto|right; split; auto].
      apply Forall_forall. intros [w n] Hn. eapply H2; eauto. }
  destruct (C14_terminates X s e D) as (r & N1 & N2 & HR). specialize (HR (parseFuel s) ltac:(lia)).
  rewrite HR in *. destruct r as [[res p']| | |]; try congruence. eauto.
Qed.

(** In particular with none of the four operators at all. *)
Theorem C15_plain : forall X s ts eof, decodable s -> tokens X s ts eof ->
  (forall t, In t ts -> ~ In (tTok t) [REGEXP; BITS; ZERO_OR_MORE; ONE_OR_MORE]) -> NoDup (defNames ts) ->
  exists res p', parse X s = Ok (res, p').
Proof.
  intros X s ts eof D HS HN HD. eapply C15_returns; eauto.
  - intros u t r ->. specialize (HN t). unfold quiet. destruct (tTok t); auto; exfalso; apply HN; simpl; auto using in_elt; tauto.
  - left. split; auto.
Qed.

(** Each exclusion is needed: a source that violates only this one crashes. *)
Theorem C15_needed : forall X,
  parse X (str "x = """) = Panic /\
  parse X (str "x = int .regexp ""a""") = Panic /\
  parse X (str "x = uint .bits") = Panic /\
  parse X (str "x = uint .bits y .regexp ""a""") = Panic /\
  parse X (str "x = # * b") = Panic /\
  parse X (str "x = #6 * b") = Panic /\
  parse X (str "x = (* a) * b") = Panic /\
  parse X (str "x = int .lt 5 x = 1") = Panic /\
  parse X (str "x = ""a"" .. x = 1") = Panic.
Proof. intros X. repeat split; vm_compute; reflexivity. Qed.

(** A check of [Quiet] going along the list. *)
Fixpoint quietFrom (before ts : list tokInfo) : Prop :=
  match ts with
  | [] => True
  | t :: r => quiet before t r /\ quietFrom (t :: before) r
  end.

Lemma quietFrom_Quiet : forall ts, quietFrom [] ts -> Quiet ts.
Proof.
  assert (H : forall ts before, quietFrom before ts -> forall u t r, ts = u ++ t :: r -> quiet (rev u ++ before) t r).
  { induction ts as [|x ts IH]; intros before HQ u t r E; [destruct u; discriminate|].
    destruct HQ as [H1 H2]. destruct u as [|y u]; simpl in E; inversion E; subst; auto.
    simpl. rewrite <- app_assoc. simpl. apply (IH _ H2 u t r eq_refl). }
  intros ts HQ u t r E. specialize (H ts [] HQ u t r E). now rewrite app_nil_r in H.
Qed.

Definition quietDoc : bytes := lines
  ["a = [* b, + c, 2*3 d]"; "b = tstr .regexp ""x"""; "c = bstr .bits b"; "d = int .lt 5 / 1..7"].

Example C15_ex : exists ts eof, decodable quietDoc /\ tokens X0 quietDoc ts eof /\ Quiet ts /\ definedOnce [] ts /\
  length ts = 33%nat /\ exists res p', parse X0 quietDoc = Ok (res, p').
Proof.
  assert (D : decodable quietDoc) by (apply good_by_ascii; vm_compute; reflexivity).
  pose (r := scans X0 34 (newLexer quietDoc)). 
  assert (HT : exists ts eof, tokens X0 quietDoc ts eof /\ quietFrom [] ts /\ NoDup (defNames ts) /\ length ts = 33%nat).
  { eexists (firstn 33 (match r with Ok (l, _) => l | _ => [] end)), (nth 33 (match r with Ok (l, _) => l | _ => [] end) zeroTok).
    split; [|split; [|split]].
    - eapply tokens_by_scans; auto; vm_compute; reflexivity.
    - vm_compute. intuition congruence.
    - vm_compute. repeat (constructor; [simpl; intuition congruence|]). constructor.
    - vm_compute. reflexivity. }
  destruct HT as (ts & eof & H1 & H2 & H3 & H4). exists ts, eof. apply quietFrom_Quiet in H2.
  assert (HD : definedOnce [] ts) by (split; auto).
  repeat (split; auto). eapply C15_returns; eauto.
Qed.
