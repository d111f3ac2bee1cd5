(** Documents of the fragment are in the grammar, with their tree. *)
From Coq Require Import String.
From Verif Require Import Base Utf8 Token Ext Strconv StrconvSpec StrconvProofs LexSpec LexSpec2 Lexer Ast Env Diag Parser ParseSpec Doc.
Open Scope string_scope.
Open Scope list_scope.
Open Scope Z_scope.

(** ** Lexemes and tokens *)

Lemma last_cons : forall (l : list tokInfo) a d, last (a :: l) d = last l a.
Proof.
  intros l. induction l as [|b l IH]; intros a d; auto. change (last (a :: b :: l) d) with (last (b :: l) d). rewrite !IH. reflexivity.
Qed.

Lemma lastOf_app : forall u v t, lastOf (u ++ v) t = lastOf v (lastOf u t).
Proof.
  unfold lastOf. induction u as [|a u IH]; intros v t; auto.
  rewrite <- app_comm_cons, !last_cons. apply IH.
Qed.

Lemma lastOf_cons : forall a v t, lastOf (a :: v) t = lastOf v a.
Proof. intros. apply last_cons. Qed.

Lemma laid_nil : forall p ts, Laid p ts [] -> ts = [].
Proof. intros p ts H. now inversion H. Qed.

Lemma laid_cons : forall p ts x xs, Laid p ts (x :: xs) ->
  exists t u, ts = t :: u /\ tTok t = xTok x /\ tLit t = xLit x /\ placed p t (xAt x) /\ Laid t u xs.
Proof. intros p ts x xs H. inversion H; subst. eauto 10. Qed.

Lemma laid_app : forall a b p ts, Laid p ts (a ++ b) ->
  exists t1 t2, ts = t1 ++ t2 /\ Laid p t1 a /\ Laid (lastOf t1 p) t2 b.
Proof.
  induction a as [|x a IH]; intros b p ts H; simpl in H.
  - exists [], ts. repeat split; auto. constructor.
  - apply laid_cons in H as (t & u & -> & H1 & H2 & H3 & H4). apply IH in H4 as (t1 & t2 & -> & H4 & H5).
    exists (t :: t1), t2. split; auto. split; [constructor; auto|]. now rewrite lastOf_cons.
Qed.

Lemma laid_last : forall a x p ts, Laid p ts (a ++ [x]) -> tTok (lastOf ts p) = xTok x.
Proof.
  intros a x p ts H. apply laid_app in H as (t1 & t2 & -> & H1 & H2). rewrite lastOf_app.
  apply laid_cons in H2 as (t & u & -> & H3 & _ & _ & H4). apply laid_nil in H4. subst. exact H3.
Qed.

(** ** Checks *)

(** A deferred check that one of the names [rs] is defined. *)
Definition refOf (rs : list bytes) (t : task) : Prop := exists w p, t = TExists w p /\ In w rs.

Lemma refOf_mono : forall a b tk, Forall (refOf a) tk -> incl a b -> Forall (refOf b) tk.
Proof.
  intros a b tk H HI. eapply Forall_impl; [|exact H]. intros t (w & p & -> & HW). exists w, p. auto.
Qed.

Lemma refOf_app : forall a b t t', Forall (refOf a) t -> Forall (refOf b) t' -> Forall (refOf (a ++ b)) (t ++ t').
Proof.
  intros. apply Forall_app. split; eapply refOf_mono; eauto; intros x; apply in_or_app || (intros; apply in_or_app); auto.
Qed.

Lemma strip_type : forall n, typeOf (strip n) = typeOf n.
Proof. destruct n; reflexivity. Qed.

Lemma strip_groupEntry : forall n, isGroupEntry (strip n) = isGroupEntry n.
Proof. intros n. unfold isGroupEntry. now rewrite strip_type. Qed.

(** ** Atoms *)

Lemma name_ne : forall w, wfName w -> exists c w', w = c :: w'.
Proof.
  intros w H. unfold wfName in H. inversion H; subst; eauto.
  match goal with K : In _ punctTable |- _ => unfold punctTable in K; simpl in K; repeat (destruct K as [K|K]; [inversion K; subst; eauto|]); contradiction end.
Qed.

Lemma lexInt_hd : forall w, lexeme INT w w -> hd 0 w <> 43 /\ hd 0 w <> 45.
Proof.
  intros w HL. inversion HL; subst; simpl; try lia.
  - unfold identStart in *. lia.
  - destruct w as [|c w]; [congruence|]. match goal with K : Forall digit _ |- _ => inversion K; subst end. unfold digit in *. simpl. lia.
  - match goal with K : In _ punctTable |- _ => unfold punctTable in K; simpl in K; repeat (destruct K as [K|K]; [inversion K|]); contradiction end.
Qed.

Lemma wfInt_parse : forall w v, wfInt w v -> v < 2 ^ 63 -> w <> str "int" /\ parseInt w = inr v.
Proof.
  intros w v [HL HN] HV. destruct (lexInt_hd w HL) as [H1 H2].
  assert (HP : parseInt w = inr v) by (apply parseInt_iff; auto). split; auto. intros ->. vm_compute in HP. discriminate.
Qed.

Lemma wfInt_parseU : forall w v, wfInt w v -> v < 2 ^ 64 -> w <> str "int" /\ parseUint w = inr v.
Proof.
  intros w v [HL HN] HV.
  assert (HP : parseUint w = inr v) by (apply parseUint_iff; auto). split; auto. intros ->. vm_compute in HP. discriminate.
Qed.

Lemma atom_ok : forall X a t nx, wfAtom X a -> tTok t = xTok (atomLx a) -> tLit t = xLit (atomLx a) -> nx <> COLON ->
  exists n tk, Atom X t nx n tk /\ strip n = treeAtom a /\ Forall (refOf (refs (XAtom a))) tk.
Proof.
  intros X a [k p l] nx HW H1 H2 HN. simpl in H1, H2. destruct a as [w|ty|b|w v|w b|w]; simpl in *; subst k l.
  - destruct (name_ne w HW) as (c & w' & ->). destruct (Z.eq_dec c 36) as [->|NC].
    + do 2 eexists. split; [apply A_socket; auto|]. split; [reflexivity|constructor].
    + do 2 eexists. split; [apply A_ref; auto|]. split; [reflexivity|]. unfold nameRef. simpl.
      replace (c =? 36) with false by (symmetry; now apply Z.eqb_neq).
      repeat constructor. do 2 eexists. split; [reflexivity|]. left. reflexivity.
  - unfold typeToks in HW. simpl in HW.
    repeat (destruct HW as [<-|HW]; [do 2 eexists; (split; [eauto using Atom; (apply A_floatType; unfold floatTok; simpl; tauto)|split; [reflexivity|constructor]])|]). contradiction.
  - destruct b; do 2 eexists; (split; [(apply A_true; auto) || (apply A_false; auto)|split; [reflexivity|constructor]]).
  - destruct HW as [HW HV]. destruct (wfInt_parse w v HW HV) as [K1 K2].
    do 2 eexists. split; [apply A_intLit; eauto|]. split; [reflexivity|constructor].
  - destruct HW as (K1 & K2 & K3). do 2 eexists. split; [eapply A_floatLit; eauto; unfold floatTok; simpl; auto|]. split; [reflexivity|constructor].
  - do 2 eexists. split; [apply A_text|]. split; [reflexivity|constructor].
Qed.

Lemma tag_ok : forall g p ts nx, wfTag g -> Laid p ts (tagLx g) -> ~ In nx [INT; FLOAT] ->
  exists major number, TagNum ts nx major number /\
    (forall q n, strip (NTag q HASH major number n) = treeTag g (strip n)) /\
    (ts = [] \/ tTok (lastOf ts p) <> COMMA).
Proof.
  intros g p ts nx HW HL HN. destruct g as [|w v|a va b vb]; simpl in HL.
  - apply laid_nil in HL. subst. do 2 eexists. split; [constructor; intros ->; apply HN; simpl; auto|]. split; [reflexivity|auto].
  - apply laid_cons in HL as ([k q l] & u & -> & H1 & H2 & _ & H3). apply laid_nil in H3. simpl in H1, H2. subst.
    destruct HW as [HW HV]. destruct (wfInt_parseU w v HW HV) as [K1 K2].
    do 2 eexists. split; [apply G_int; eauto|]. split; [reflexivity|]. right. discriminate.
  - apply laid_cons in HL as ([k q l] & u & -> & H1 & H2 & _ & H3). apply laid_nil in H3. simpl in H1, H2. subst.
    destruct HW as (D1 & D2 & N1 & N2 & V1 & V2).
    assert (ND : forall s, Forall digit s -> ~ In 46 s).
    { intros s HS HI. rewrite Forall_forall in HS. apply HS in HI. unfold digit in HI. lia. }
    do 2 eexists. split; [apply G_float; auto; apply parseUint_iff; eauto|]. split; [reflexivity|]. right. discriminate.
Qed.

(** ** Expressions *)

Lemma show_comma : forall e, primary e = true -> forall c, show e c = show e false ++ commaLx c.
Proof.
  intros e HP c. destruct e; try discriminate; simpl; auto.
  - now rewrite <- app_assoc.
  - rewrite <- !app_assoc. simpl. now rewrite <- !app_assoc.
  - rewrite <- !app_assoc. reflexivity.
Qed.

Lemma entry_lead : forall X ts nx n tk cms, Entry X ts nx n tk -> Forall commentTok cms -> Entry X (cms ++ ts) nx n tk.
Proof.
  intros X ts nx n tk cms H HC. inversion H; subst. rewrite app_assoc. eapply E_intro; eauto. now apply Forall_app.
Qed.

Lemma lead_comments : forall first lead p ts, Laid p ts (leadLx first lead) -> Forall commentTok ts /\ length ts = length lead /\
  map tLit ts = lead.
Proof.
  assert (HM : forall l p ts, Laid p ts (map (commentLx Any) l) -> Forall commentTok ts /\ length ts = length l /\ map tLit ts = l).
  { induction l as [|c l IH]; intros p ts H; simpl in H; [apply laid_nil in H; subst; auto|].
    apply laid_cons in H as (t & u & -> & H1 & H2 & _ & H4). apply IH in H4 as (K1 & K2 & K3).
    simpl. rewrite K2, K3, H2. auto. }
  intros first [|c l] p ts H; simpl in H; [apply laid_nil in H; subst; auto|].
  apply laid_cons in H as (t & u & -> & H1 & H2 & _ & H4). apply HM in H4 as (K1 & K2 & K3). simpl. rewrite K2, K3, H2. auto.
Qed.

(** What may follow a primary. *)
Definition nudNext (e : expr) (k : token) : Prop :=
  match e with
  | XAtom _ => k <> COLON
  | XTag _ => ~ In k [LPAREN; INT; FLOAT]
  | _ => True
  end.

Section Exprs.
  Variable X : Ext.

  Definition entryOk (e : expr) : Prop := wf X e -> forall c p ts nx, Laid p ts (show e c) -> mayFollow e c (tTok nx) ->
    (spine e = Some None -> ~ trailing (lastOf ts p) nx) ->
    exists n tk, Entry X ts nx n tk /\ strip n = tree e /\ Forall (refOf (refs e)) tk.

  Definition nudOk (e : expr) : Prop := primary e = true -> wf X e -> forall p ts nx, Laid p ts (show e false) ->
    nudNext e (tTok nx) ->
    exists t u n tk, ts = t :: u /\ Nud X (t :: u) nx n tk /\ tTok (lastOf u t) <> COMMA /\ strip n = tree e /\ Forall (refOf (refs e)) tk.

  Definition elemsOk (es : elems) : Prop := forall g, wfElems X g es -> forall first p ts c, Laid p ts (showElems first es) ->
    In (tTok c) [RPAREN; RBRACK; RBRACE] ->
    exists ns tk, Entries X ts c ns tk /\ map strip ns = trees es /\ Forall (refOf (refsElems es)) tk /\
      (g = true -> filter isGroupEntry ns = ns).

  Lemma nud_entry : forall e, primary e = true -> nudOk e -> entryOk e.
  Proof.
    intros e HP HN HW c p ts nx HL HF _. rewrite (show_comma e HP c) in HL.
    apply laid_app in HL as (t1 & t2 & -> & H1 & H2).
    assert (HS : spine e = None) by (destruct e; auto; discriminate).
    assert (HC : closed e c = c) by (unfold closed; rewrite HS; apply andb_true_r).
    destruct c; simpl in H2.
    - apply laid_cons in H2 as (k & u & -> & K1 & _ & _ & K2). apply laid_nil in K2. subst. simpl in K1.
      destruct (HN HP HW p t1 k H1) as (t & u & n & tk & -> & HNud & HNC & HT & HR).
      { destruct e; simpl; auto; rewrite K1; [discriminate|]. intros [K|[K|[K|[]]]]; discriminate. }
      exists n, (tk ++ []). rewrite app_nil_r at 1. split; [|split; auto; rewrite app_nil_r; auto].
      rewrite <- (app_nil_r tk). apply (E_intro X [] t u [k] nx n tk n []); auto. apply T_comma; auto.
    - apply laid_nil in H2. subst. rewrite app_nil_r. destruct HF as [HF1 HF2]. rewrite HC in HF1. specialize (HF1 eq_refl).
      destruct (HN HP HW p t1 nx H1) as (t & u & n & tk & -> & HNud & HNC & HT & HR).
      { destruct e; simpl; auto. intros K; rewrite K in HF1; discriminate. }
      exists n, tk. split; auto. rewrite <- (app_nil_r tk), <- (app_nil_r (t :: u)).
      apply (E_intro X [] t u [] nx n tk n []); auto. apply T_end. right. auto.
  Qed.

  Lemma atom_nud : forall a, nudOk (XAtom a).
  Proof.
    intros a _ HW p ts nx HL HN. simpl in HL. apply laid_cons in HL as (t & u & -> & H1 & H2 & _ & H3).
    apply laid_nil in H3. subst. destruct (atom_ok X a t (tTok nx) HW H1 H2 HN) as (n & tk & K1 & K2 & K3).
    exists t, [], n, tk. split; auto. split; [constructor; auto|]. split; auto. simpl. rewrite H1.
    destruct a as [ | ty | [|] | | | ]; simpl; try discriminate. simpl in HW. intros ->. unfold typeToks in HW. simpl in HW. intuition discriminate.
  Qed.

  Lemma tag_nud : forall g, nudOk (XTag g).
  Proof.
    intros g _ HW p ts nx HL HN. simpl in HL. rewrite app_nil_r in HL. apply laid_cons in HL as (t & u & -> & H1 & _ & _ & H3).
    destruct (tag_ok g t u (tTok nx) HW H3) as (ma & nu & K1 & K2 & K3); [intros K; apply HN; simpl in *; tauto|].
    exists t, u. do 2 eexists. split; auto. split; [apply N_tag; eauto; intros K; apply HN; simpl; auto|].
    split; [|split; [apply K2|constructor]]. destruct K3 as [->|K3]; auto. simpl. rewrite H1. discriminate.
  Qed.

  Lemma tagged_nud : forall g e, entryOk e -> nudOk (XTagged g e).
  Proof.
    intros g e IH _ HW p ts nx HL _. simpl in HL. destruct HW as [HW1 HW2].
    apply laid_cons in HL as (t & u & -> & H1 & _ & _ & H3). apply laid_app in H3 as (t1 & t2 & -> & H3 & H4).
    apply laid_cons in H4 as (lp & u2 & -> & H4 & _ & _ & H5). apply laid_app in H5 as (t3 & t4 & -> & H5 & H6).
    apply laid_cons in H6 as (rp & u4 & -> & H6 & _ & _ & H7). apply laid_nil in H7. subst u4. simpl in H1, H4, H6.
    destruct (tag_ok g t t1 LPAREN HW1 H3) as (ma & nu & K1 & K2 & _); [simpl; intuition discriminate|].
    destruct (IH HW2 false lp t3 rp H5) as (n & tk & L1 & L2 & L3).
    { rewrite H6. split; auto. intros _ _. simpl. intuition discriminate. }
    { intros _ [K _]. congruence. }
    exists t, (t1 ++ lp :: t3 ++ [rp]), (NTag (tPos t) HASH ma nu n), tk. split; auto.
    split; [apply N_tagged with (nx' := rp); auto|]. split; [|split; auto; rewrite K2, L2; reflexivity].
    rewrite lastOf_app, lastOf_cons, lastOf_app. simpl. rewrite H6. discriminate.
  Qed.

  Lemma bracket_nud : forall b es, elemsOk es -> nudOk (XBracket b es).
  Proof.
    intros b es IH _ HW p ts nx HL _. simpl in HL, HW.
    apply laid_cons in HL as (t & u & -> & H1 & _ & _ & H3). apply laid_app in H3 as (t1 & t2 & -> & H3 & H4).
    apply laid_cons in H4 as (c & u2 & -> & H4 & _ & _ & H5). apply laid_nil in H5. subst u2. simpl in H1, H4.
    destruct (IH _ HW true t t1 c H3) as (ns & tk & K1 & K2 & K3 & K4); [rewrite H4; destruct b; simpl; auto|].
    assert (NC : tTok (lastOf (t1 ++ [c]) t) <> COMMA) by (rewrite lastOf_app; simpl; rewrite H4; destruct b; discriminate).
    destruct b; simpl in H1, H4, K4; try specialize (K4 eq_refl).
    - exists t, (t1 ++ [c]), (NGroup (tPos t) (filter isGroupEntry ns)), tk. split; auto. split; [apply N_group; auto|].
      split; auto. split; auto. simpl. now rewrite K4, K2.
    - exists t, (t1 ++ [c]), (NArray (tPos t) (filter isGroupEntry ns)), tk. split; auto. split; [apply N_array; auto|].
      split; auto. split; auto. simpl. now rewrite K4, K2.
    - exists t, (t1 ++ [c]), (NMap (tPos t) ILLEGAL ns), tk. split; auto. split; [apply N_map; auto|].
      split; auto. split; auto. simpl. now rewrite K2.
  Qed.

  (** The first token of an expression that is not led by a numeral. *)
  Lemma leads_upper : forall e c p ts t u, leadsInt e = false -> Laid p ts (show e c) -> ts = t :: u -> Upper t None.
  Proof.
    intros e. induction e; intros c p' ts t u HN HL E; simpl in HL, HN;
      try (apply laid_cons in HL as (t' & u' & -> & H1 & H2 & _); inversion E; subst; constructor; intros [K1 K2]; rewrite K1 in H1; simpl in H1; try discriminate).
    - destruct a; simpl in *; try discriminate. subst t0. apply K2. rewrite H2. reflexivity.
      destruct b; discriminate.
    - destruct b; discriminate.
    - destruct p; discriminate.
    - apply laid_app in HL as (t1 & t2 & -> & H1 & H2). destruct t1 as [|a t1].
      + assert (show e1 false <> []) by (destruct e1; discriminate || (simpl; destruct (show e1_1 false); discriminate)).
        destruct (show e1 false); [congruence|inversion H1].
      + inversion E; subst. eapply IHe1; eauto.
    - destruct k; discriminate.
  Qed.

  Lemma show_ne : forall e c, show e c <> [].
  Proof. intros e c. destruct e; simpl; try discriminate. destruct (show e1 false); discriminate. Qed.

  Lemma laid_ne : forall p ts xs, Laid p ts xs -> xs <> [] -> exists t u, ts = t :: u.
  Proof. intros p ts xs H HN. inversion H; subst; [congruence|eauto]. Qed.

  (** The last token of a closed element. *)
  Lemma spine_last : forall e c p ts, wf X e -> Laid p ts (show e c) -> closed e c = true -> tTok (lastOf ts p) = COMMA.
  Proof.
    intros e. induction e; intros c p' ts HW HL HC; unfold closed in HC; simpl in HC; apply andb_true_iff in HC as [-> HC]; simpl in HL, HW;
      unfold closed in *.
    - apply (laid_last [atomLx a] (lx1 COMMA) p' ts HL).
    - apply (laid_last (lx1 HASH :: tagLx g) (lx1 COMMA) p' ts HL).
    - apply (laid_last (lx1 HASH :: tagLx g ++ lx1 LPAREN :: show e false ++ [lx1 RPAREN]) (lx1 COMMA) p' ts).
      rewrite <- !app_comm_cons, <- !app_assoc, <- !app_comm_cons, <- !app_assoc. exact HL.
    - apply (laid_last (lx1 (opening b) :: showElems true es ++ [lx1 (closing b)]) (lx1 COMMA) p' ts).
      rewrite <- !app_comm_cons, <- !app_assoc. exact HL.
    - apply laid_cons in HL as (t & u & -> & _ & _ & _ & H). rewrite lastOf_cons. eapply IHe; eauto; tauto.
    - apply laid_app in HL as (t1 & t2 & -> & H1 & H2). apply laid_cons in H2 as (t & u & -> & _ & _ & _ & H).
      rewrite lastOf_app, lastOf_cons. eapply IHe2; eauto; tauto.
    - destruct tc; [discriminate|]. apply laid_cons in HL as (t & u & -> & _ & _ & _ & H).
      apply laid_cons in H as (t' & u' & -> & _ & _ & _ & H). rewrite app_nil_r in H. rewrite !lastOf_cons.
      destruct HW as (_ & HW & HS & _). eapply IHe; eauto. now rewrite HS.
  Qed.

  Lemma over_next : forall e c p ts nx, wf X e -> Laid p ts (show e c) -> mayFollow e c (tTok nx) -> over (tTok (lastOf ts p)) (tTok nx).
  Proof.
    intros e c p ts nx HW HL [HF _]. destruct (closed e c) eqn:EC; [left; eapply spine_last; eauto|right; auto].
  Qed.

  Lemma prefix_entry : forall q e, entryOk e -> entryOk (XPrefix q e).
  Proof.
    intros q e IH [HW HI] c p ts nx HL HF HT. simpl in HL. apply laid_cons in HL as (t & u & -> & H1 & _ & _ & H).
    simpl in H1. rewrite lastOf_cons in HT. destruct (IH HW c t u nx H HF HT) as (n & tk & K1 & K2 & K3).
    pose proof (over_next e c t u nx HW H HF) as HO.
    assert (HE : forall m, Nud X (t :: u) nx m tk -> Entry X (t :: u) nx m tk).
    { intros m HN. rewrite <- (app_nil_r tk), <- (app_nil_r (t :: u)). apply (E_intro X [] t u [] nx m tk m []); auto. now apply T_end. }
    destruct q; simpl in H1.
    - exists (NOptional (tPos t) OPTIONAL n), tk. split; [apply HE, N_optional; auto|]. split; auto. simpl. now rewrite K2.
    - exists (NUnwrap (tPos t) UNWRAP n), tk. split; [apply HE, N_unwrap; auto|]. split; auto. simpl. now rewrite K2.
    - exists (NEnumeration (tPos t) AMPERSAND n), tk. split; [apply HE, N_enum; auto|]. split; auto. simpl. now rewrite K2.
    - destruct (laid_ne _ _ _ H (show_ne e c)) as (t' & u' & ->). do 2 eexists.
      split; [apply HE, N_star; eauto; eapply leads_upper; eauto|]. split; auto. simpl. now rewrite K2.
    - destruct (laid_ne _ _ _ H (show_ne e c)) as (t' & u' & ->). do 2 eexists.
      split; [apply HE, N_plus; eauto; eapply leads_upper; eauto|]. split; auto. simpl. now rewrite K2.
  Qed.

  Lemma strip_tstr : forall n k, strip n = NTstrType z k -> exists p, n = NTstrType p k.
  Proof. intros n k H. destruct n; try discriminate. inversion H; subst. eauto. Qed.

  Lemma infix_ok : forall o l r op n v t u c p, wf X (XInfix l o r) -> tTok op = opTok o -> tLit op = tokenName (opTok o) ->
    strip n = tree l -> strip v = tree r -> Laid p (t :: u) (show r c) ->
    exists m, Infix op n t v m [] /\ strip m = treeInfix o (tree l) (tree r).
  Proof.
    intros o l r op n v t u c p (HP & HWl & HWr & HW) H1 H2 Hn Hv HL. destruct o; simpl in H1, H2, HW.
    - eexists. split; [apply I_choice; destruct group; auto|]. simpl. now rewrite H1, Hn, Hv.
    - destruct HW as (HT & k & -> & HK). eexists. split.
      + apply I_compare; [now rewrite H1|]. rewrite <- strip_type, Hn. simpl in HK. simpl.
        repeat (destruct HK as [<-|HK]; [simpl; tauto|]). contradiction.
      + simpl. now rewrite H1, H2, Hv.
    - destruct HW as (k & -> & HK). eexists. split.
      + apply I_size; auto. rewrite <- strip_type, Hn. simpl in HK. simpl.
        repeat (destruct HK as [<-|HK]; [simpl; tauto|]). contradiction.
      + simpl. now rewrite Hn, Hv.
    - destruct HW as ((k & -> & HK) & HF). simpl in Hn.
      assert (Hn' : strip n = NTstrType z k) by (destruct HK as [<-|[<-|[]]]; exact Hn).
      destruct (strip_tstr _ _ Hn') as (q & ->). eexists. split.
      + apply I_regexp; auto. assert (HF' : firstTok (show r c) EOF = firstTok (show r false) EOF).
        { clear. induction r; simpl; auto. destruct (show r1 false); [|reflexivity]. auto. }
        rewrite <- HF' in HF. destruct (show r c) as [|x xs]; [inversion HL|]. inversion HL; subst. simpl in HF. destruct HF as [HF|[HF|[]]]; [left|right]; congruence.
      + simpl. destruct HK as [<-|[<-|[]]]; simpl; now rewrite Hv.
    - eexists. split; [apply I_bits; auto|]. simpl. now rewrite Hn, Hv.
    - destruct HW as ((w & x & ->) & HI). simpl in Hn. destruct n; try discriminate. inversion Hn; subst.
      assert (HX : 0 <= x) by (destruct HWl as [[_ HN] _]; eapply value_pos; eauto).
      eexists. split; [apply I_occur; [destruct plus; auto|constructor; auto|eapply leads_upper; eauto]|].
      simpl. rewrite Hv. destruct plus; simpl; now rewrite H1.
    - destruct HW as [(w & x & w' & x' & -> & ->)|(w & x & w' & x' & -> & ->)]; simpl in Hn, Hv;
        destruct n; try discriminate; destruct v; try discriminate; inversion Hn; inversion Hv; subst; eexists;
        (split; [(apply I_boundInt || apply I_boundFloat); destruct excl; auto|]); simpl; destruct excl; simpl; now rewrite H1.
  Qed.

  Lemma infix_entry : forall l o r, nudOk l -> entryOk r -> entryOk (XInfix l o r).
  Proof.
    intros l o r IHl IHr HW c p ts nx HL HF HT. simpl in HL. pose proof HW as (HP & HWl & HWr & HO).
    apply laid_app in HL as (t1 & t2 & -> & H1 & H2). apply laid_cons in H2 as (op & u & -> & H2 & H3 & _ & H4).
    rewrite lastOf_app, lastOf_cons in HT. simpl in H2, H3.
    destruct (IHr HWr c op u nx H4 HF HT) as (v & tk & K1 & K2 & K3).
    destruct (laid_ne _ _ _ H4 (show_ne r c)) as (t & e & ->).
    assert (HK : tTok op <> COLON /\ ~ In (tTok op) [LPAREN; INT; FLOAT]).
    { rewrite H2. destruct o as [[|]|k| | | |[|]|[|]]; simpl; try (split; [discriminate|intuition discriminate]).
      destruct HO as [HO _]. simpl in HO. repeat (destruct HO as [<-|HO]; [split; [discriminate|intuition discriminate]|]). contradiction. }
    destruct (IHl HP HWl p t1 op H1) as (t0 & u0 & n & tk0 & -> & L1 & L2 & L3 & L4).
    { destruct l; simpl; auto; apply HK. }
    destruct (infix_ok o l r op n v t e c op HW H2 H3 L3 K2 H4) as (m & M1 & M2).
    exists m, (tk0 ++ tk). split; [|split; [exact M2|apply refOf_app; auto]].
    rewrite <- (app_nil_r tk). apply (E_intro X [] t0 u0 (op :: t :: e) nx n tk0 m (tk ++ [])); auto. apply T_infix with (v := v); auto.
  Qed.

  Lemma key_ok : forall k (arrow : bool) t op, wfKey k -> tTok t = xTok (keyLx k) -> tLit t = xLit (keyLx k) ->
    tTok op = (if arrow then ARROW_MAP else COLON) ->
    exists n i tk, Atom X t (tTok op) n tk /\ Key op n i /\ stripI i = treeKey k /\ Forall (refOf (keyRef k arrow)) tk.
  Proof.
    intros k arrow t op HW H1 H2 H3. destruct k as [w|w v]; simpl in H1, H2, HW.
    - destruct arrow; rewrite H3.
      + destruct (atom_ok X (AName w) t ARROW_MAP HW H1 H2) as (n & tk & K1 & K2 & K3); [discriminate|].
        simpl in K2. destruct n; try discriminate. exists (NIdentifier i), i, tk. split; auto. split; [constructor|].
        split; [simpl in K2; injection K2 as K2; unfold stripI, treeKey; now rewrite K2|exact K3].
      + destruct t as [kt p l]. simpl in *. subst. do 3 eexists. split; [apply A_key|]. split; [constructor|]. split; [reflexivity|constructor].
    - destruct HW as [HW HV]. destruct (wfInt_parse w v HW HV) as [K1 K2]. destruct t as [kt p l]. simpl in *. subst.
      do 3 eexists. split; [apply A_intLit; eauto|]. split; [constructor|]. split; [reflexivity|constructor].
  Qed.

  Lemma member_entry : forall k arrow v tc, entryOk v -> entryOk (XMember k arrow v tc).
  Proof.
    intros k arrow v tc IH (HW1 & HW2 & HS & HC) c p ts nx HL HF HT. simpl in HL.
    apply laid_cons in HL as (t0 & u & -> & H1 & H2 & _ & HL). apply laid_cons in HL as (op & u2 & -> & H3 & _ & _ & HL).
    simpl in H3. apply laid_app in HL as (t1 & t2 & -> & H4 & H5).
    destruct (key_ok k arrow t0 op HW1 H1 H2 H3) as (n & i & tk0 & K1 & K2 & K3 & K4).
    destruct (laid_ne _ _ _ H4 (show_ne v c)) as (t & e & ->).
    assert (N0 : tTok (lastOf [] t0) <> COMMA) by (simpl; rewrite H1; destruct k; discriminate).
    assert (HO : tTok op = COLON \/ tTok op = ARROW_MAP) by (rewrite H3; destruct arrow; auto).
    destruct tc as [cm|].
    - apply laid_cons in H5 as (ct & u3 & -> & H5 & H6 & H7 & H8). apply laid_nil in H8. subst u3. simpl in H5, H6. cbn [xAt commentLx placed] in H7.
      rewrite lastOf_cons in H7.
      destruct (IH HW2 c op (t :: e) ct H4) as (m & tk & L1 & L2 & L3).
      { rewrite H5. split; auto. intros _ _. simpl. intuition discriminate. }
      { congruence. }
      exists (NEntry (tPos op) i m (Some (commentOf ct))), (tk0 ++ tk). split; [|split; [|apply refOf_app; auto]].
      + rewrite <- (app_nil_r tk).
        apply (E_intro X [] t0 [] (op :: (t :: e) ++ [ct]) nx n tk0 _ (tk ++ [])); auto; [constructor; exact K1|].
        apply (T_memberComment X _ n op t e ct [] nx i m); auto; [split; auto|]. apply T_end. right. destruct HF as [HF _]. apply HF. unfold closed. simpl. apply andb_false_r.
      + simpl. rewrite K3, L2. unfold stripC, treeComment. simpl. now rewrite H6.
    - apply laid_nil in H5. subst t2. rewrite app_nil_r. rewrite app_nil_r in HT. rewrite !lastOf_cons in HT. simpl in HT. specialize (HT eq_refl).
      destruct (IH HW2 c op (t :: e) nx H4) as (m & tk & L1 & L2 & L3).
      { destruct HF as [HF1 HF2]. split; auto. unfold closed in *. simpl in HF1. rewrite HS. auto. }
      { congruence. }
      exists (NEntry (tPos op) i m None), (tk0 ++ tk). split; [|split; [|apply refOf_app; auto]].
      + apply (E_intro X [] t0 [] (op :: t :: e) nx n tk0 _ tk); auto; [constructor; exact K1|]. apply T_member; auto.
      + simpl. now rewrite K3, L2.
  Qed.

  Lemma first_laid : forall p ts xs c d, Laid p ts xs -> tTok c = d -> tTok (nextOf ts c) = firstTok xs d.
  Proof. intros p ts xs c d H E. inversion H; subst; auto. Qed.

  Lemma show_first : forall e c d, firstTok (show e c) d <> COMMENT \/ ~ wf X e.
  Proof.
    intros e c d. induction e; simpl; try (left; discriminate).
    - destruct a as [ |ty|[|]| | | ]; simpl; try (left; discriminate).
      destruct (token_eq_dec ty COMMENT) as [->|]; auto. right. unfold typeToks. simpl. intuition discriminate.
    - left. destruct b; discriminate.
    - left. destruct p; discriminate.
    - destruct IHe1 as [K|K].
      + left. assert (HS : firstTok (show e1 c) d = firstTok (show e1 false) d).
        { clear. induction e1; simpl; auto. destruct (show e1_1 false); [|reflexivity]. auto. }
        rewrite HS in K. destruct (show e1 false) eqn:E; [|exact K]. now apply show_ne in E.
      + right. tauto.
    - left. destruct k; discriminate.
  Qed.

  (** No comment on the line of [p] starts the tokens. *)
  Lemma elems_fresh : forall g es p ts c, wfElems X g es -> Laid p ts (showElems false es) -> tTok c <> COMMENT ->
    ~ trailing p (nextOf ts c).
  Proof.
    intros g es p ts c HW HL HC [H1 H2]. destruct es as [|lead e cm r]; simpl in HL.
    - apply laid_nil in HL. subst. contradiction.
    - destruct lead as [|w lead]; simpl in HL.
      + destruct HW as (_ & HW & _). destruct (show_first e cm EOF) as [K|K]; [|contradiction].
        pose proof (show_ne e cm) as NE. destruct (show e cm) as [|x xs]; [congruence|].
        apply laid_cons in HL as (t & u & -> & H3 & _). simpl in *. congruence.
      + apply laid_cons in HL as (t & u & -> & _ & _ & H3 & _). simpl in *. congruence.
  Qed.

  Lemma elems_first : forall es p ts c, Laid p ts (showElems false es) -> In (tTok c) [RPAREN; RBRACK; RBRACE] ->
    forall e cm, mayFollow e cm (firstTok (showElems false es) RPAREN) -> mayFollow e cm (tTok (nextOf ts c)).
  Proof.
    intros es p ts c HL HC e cm HF. destruct (showElems false es) as [|x xs].
    - apply laid_nil in HL. subst. simpl in *. split; intros; destruct HC as [K|[K|[K|[]]]]; rewrite <- K; auto; simpl; intuition discriminate.
    - apply laid_cons in HL as (t & u & -> & H & _). simpl in *. now rewrite H.
  Qed.

  Theorem exprs_ok : (forall e, entryOk e /\ nudOk e) /\ (forall es, elemsOk es).
  Proof.
    apply expr_elems_ind.
    - intros a. split; [apply nud_entry; auto|]; apply atom_nud.
    - intros g. split; [apply nud_entry; auto|]; apply tag_nud.
    - intros g e [IH _]. split; [apply nud_entry; auto|]; apply tagged_nud; auto.
    - intros b es IH. split; [apply nud_entry; auto|]; apply bracket_nud; auto.
    - intros q e [IH _]. split; [apply prefix_entry; auto|]. intros H. discriminate.
    - intros l [_ IHl] o r [IHr _]. split; [apply infix_entry; auto|]. intros H. discriminate.
    - intros k arrow v [IH _] tc. split; [apply member_entry; auto|]. intros H. discriminate.
    - intros g _ first p ts c HL _. simpl in HL. apply laid_nil in HL. subst. exists [], []. repeat split; auto. constructor.
    - intros lead e [IH _] cm r IHr g (HW1 & HW2 & HW3 & HW4 & HW5) first p ts c HL HC. simpl in HL.
      apply laid_app in HL as (t1 & t2 & -> & H1 & H2). apply laid_app in H2 as (t3 & t4 & -> & H2 & H3).
      apply lead_comments in H1 as [H1 _].
      destruct (IH HW2 cm _ t3 (nextOf t4 c) H2) as (n & tk & K1 & K2 & K3).
      { eapply elems_first; eauto. }
      { intros _. eapply elems_fresh; eauto. simpl in HC. destruct HC as [E|[E|[E|[]]]]; rewrite <- E; discriminate. }
      destruct (IHr g HW5 false _ t4 c H3 HC) as (ns & tk' & L1 & L2 & L3 & L4).
      exists (n :: ns), (tk ++ tk'). split; [|split; [|split]].
      + rewrite app_assoc. apply Es_cons; auto. apply entry_lead; auto.
      + simpl. now rewrite K2, L2.
      + simpl. apply refOf_app; auto.
      + intros HG. simpl. specialize (HW3 HG). rewrite <- K2, strip_groupEntry in HW3. rewrite HW3. now rewrite L4.
  Qed.
End Exprs.

(** ** Files *)

Lemma comments_tree : forall t ts, map strip [commentNode (t :: ts)] = treeComments (map tLit (t :: ts)).
Proof.
  intros t ts. destruct ts as [|t' ts]; [reflexivity|]. cbn [commentNode map strip treeComments]. do 2 f_equal.
  unfold stripC, commentOf, treeComment. simpl. do 2 f_equal. induction ts; simpl; congruence.
Qed.

Lemma rules_fresh : forall rs final p ts eof, Laid p ts (showRules false rs final) -> tTok eof = EOF ->
  ~ trailing p (nextOf ts eof) /\ In (tTok (nextOf ts eof)) [IDENT; COMMENT; EOF].
Proof.
  intros rs final p ts eof HL HE.
  assert (HLd : forall w lead xs, Laid p ts (leadLx false (w :: lead) ++ xs) ->
    ~ trailing p (nextOf ts eof) /\ In (tTok (nextOf ts eof)) [IDENT; COMMENT; EOF]).
  { intros w lead xs K. simpl in K. apply laid_cons in K as (t & u & -> & K1 & _ & K2 & _). simpl in *. split; [intros [K3 K4]; congruence|].
    rewrite K1. auto. }
  destruct rs as [|[lead r] rest]; simpl in HL.
  - destruct final as [|w lead]; [|apply (HLd w lead []); now rewrite app_nil_r].
    apply laid_nil in HL. subst. simpl. rewrite HE. split; auto. intros [K _]. congruence.
  - destruct lead as [|w lead]; [|eapply HLd; eauto]. simpl in HL. apply laid_cons in HL as (t & u & -> & K1 & _). simpl in *.
    rewrite K1. split; auto. intros [K _]. congruence.
Qed.

Definition ruleDefs (rs : list (list bytes * rule)) : list (bytes * node) :=
  flat_map (fun r => if teq (rAssign (snd r)) ASSIGN then [(rName (snd r), tree (rBody (snd r)))] else []) rs.
Definition ruleRefs (rs : list (list bytes * rule)) : list bytes := flat_map (fun r => refs (rBody (snd r))) rs.

Theorem rules_ok : forall X rs final first p ts eof, Laid p ts (showRules first rs final) ->
  Forall (fun r => Forall wfComment (fst r) /\ wfRule X (snd r)) rs -> tTok eof = EOF ->
  exists rules tk defs, File X ts eof rules tk defs /\ map strip rules = treeRules rs final /\
    Forall (refOf (ruleRefs rs)) tk /\ map (fun b => (fst b, strip (snd b))) defs = ruleDefs rs.
Proof.
  intros X rs final. induction rs as [|[lead r] rest IH]; intros first p ts eof HL HW HE; simpl in HL.
  - apply lead_comments in HL as (H1 & H2 & <-). destruct ts as [|t ts].
    + exists [], [], []. repeat split; constructor.
    + do 3 eexists. split; [|split; [|split]].
      * rewrite <- (app_nil_r (t :: ts)). apply F_comments; [exact H1| |constructor]. simpl. rewrite HE. discriminate.
      * apply comments_tree.
      * constructor.
      * reflexivity.
  - apply laid_app in HL as (t1 & t2 & -> & H1 & HL). apply lead_comments in H1 as (H1 & _ & <-).
    inversion HW as [|? ? [_ (W1 & W2 & W3 & W4)] W5]; subst. simpl in W1, W2, W3, W4.
    apply (laid_app (showRule r)) in HL as (t3 & t4 & -> & H2 & H3).
    apply laid_cons in H2 as ([k q l] & u & -> & H4 & H5 & _ & H2). apply laid_cons in H2 as (a & u' & -> & H6 & _ & _ & H2).
    simpl in H4, H5, H6. subst k l. destruct (laid_ne _ _ _ H2 (show_ne (rBody r) false)) as (t & e & ->).
    destruct (rules_fresh rest final _ t4 eof H3 HE) as [HT HN]. rewrite !lastOf_cons in HT.
    destruct (proj1 (proj1 (exprs_ok X) (rBody r)) W3 false a (t :: e) (nextOf t4 eof) H2) as (n & tk & K1 & K2 & K3).
    { split; intros; simpl in HN; destruct HN as [K|[K|[K|[]]]]; rewrite <- K; auto; simpl; intuition discriminate. }
    { intros _. rewrite lastOf_cons. exact HT. }
    destruct (IH false _ t4 eof H3 W5 HE) as (rules & tk' & defs & L1 & L2 & L3 & L4).
    assert (HA : assignTok (tTok a)) by (now rewrite H6).
    pose proof (F_rule X q (rName r) a t e t4 eof n rules tk tk' defs HA K1 HT L1) as HF.
    assert (HD : map (fun b => (fst b, strip (snd b))) (defOf (tTok a) (rName r) n ++ defs) = ruleDefs ((map tLit t1, r) :: rest)).
    { unfold ruleDefs. simpl. rewrite map_app, L4, H6. f_equal. unfold defOf. destruct (teq (rAssign r) ASSIGN); auto. simpl. now rewrite K2. }
    assert (HR : Forall (refOf (ruleRefs ((map tLit t1, r) :: rest))) (tk ++ tk')) by (apply refOf_app; auto).
    assert (HS : map strip (NRule zeroPos (mkIdent q (rName r)) n None :: rules) =
      NRule z (mkIdent z (rName r)) (tree (rBody r)) None :: treeRules rest final).
    { simpl. rewrite K2, L2. reflexivity. }
    destruct t1 as [|c cs].
    + do 3 eexists. split; [exact HF|]. split; [exact HS|]. auto.
    + do 3 eexists. split; [apply (F_comments X c cs); [exact H1|simpl; discriminate|exact HF]|]. split; [|auto].
      cbn [treeRules]. rewrite <- comments_tree, <- HS. reflexivity.
Qed.
