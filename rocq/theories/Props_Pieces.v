(** Property C95: the generated file is made of pieces, one for each block of rules, and rules
    that are not used can be left out. *)
From Coq Require Import String Permutation.
From Verif Require Import Base Utf8 Token Strconv Ext Lexer LexSpec LexSpec2 LexSpec3 LexerProofs LexOne LexSeq LexWords Ast Env Diag Doc DocText Parser ParseSpec ParseStream ParseFacts
  ParseFrame ParseTop ParseSource ParseTree ParseUnique ParseSound ParseTwin ParseLayout ParseLocal ParseConcat ParseTokens Codegen Cli Props_Lexer Props_LexFull Props_Parser Props_Layout Props_Append Props_Concat Props_Order
  Props_Blocks Props_Codegen Props_Cli Props_Report Props_Reformat.
Open Scope string_scope.
Open Scope list_scope.
Open Scope Z_scope.

(** ** Specification *)

(** [w] is one of the identifiers of the source. *)
Definition mentions (X : Ext) (s w : bytes) : Prop := exists ts eof t, tokens X s ts eof /\ In t ts /\ tTok t = IDENT /\ tLit t = w.

(** Blocks as for C88: each reads as rules and definitions, and all that may be wrong with it has
    to do with names defined elsewhere. *)
Definition blocks (X : Ext) (bs : list block) : Prop :=
  NoDup (ParseTop.names (flat_map bDefs bs)) /\ Forall (fun b => decodable (bSrc b) /\ reads X [] (bSrc b) (bRules b) (bDefs b) /\ endsPlain (bRules b)) bs.

(** Declarations, and how often the validators are imported. *)
Definition piece : Type := list gdecl * nat.
Definition pieceOf (C : CliExt) (b : block) (p : piece) : Prop := FileIs (cGen C) (bRules b) (fst p) (snd p).
Definition render (C : CliExt) (pkg : bytes) (ps : list piece) : bytes :=
  fileText C (add (flat_map fst ps) (list_sum (map snd ps)) (newGenerator pkg)).

(** ** Names in checks *)

Definition taskNames (t : task) : list bytes :=
  match t with
  | TExists w _ | TIntBound w _ _ | TFloatBound w _ _ => [w]
  | TIdentBound _ l (NIdentifier i) => [iName l; iName i]
  | TIdentBound _ _ _ => []
  end.

Lemma runTask_same : forall e e' t, (forall w, In w (taskNames t) -> assoc w e = assoc w e') -> runTask e t = runTask e' t.
Proof.
  intros e e' t H. assert (K : forall w, In w (taskNames t) -> get e w = get e' w /\ exists_ e w = exists_ e' w) by (intros w W; unfold get, exists_; now rewrite (H w W)).
  destruct t as [w p|k l to|w s f|w s f]; cbn [runTask taskNames] in *.
  - now rewrite (proj2 (K w (or_introl eq_refl))).
  - destruct to; auto. now rewrite (proj1 (K _ (or_introl eq_refl))), (proj1 (K _ (or_intror (or_introl eq_refl)))).
  - destruct (K w (or_introl eq_refl)) as [-> ->]. reflexivity.
  - destruct (K w (or_introl eq_refl)) as [-> ->]. reflexivity.
Qed.

Section Names.
  Variable S : bytes -> Prop.
  Definition tokOk (t : tokInfo) : Prop := tTok t = IDENT -> S (tLit t).
  Definition idOk (n : node) : Prop := match n with NIdentifier i => S (iName i) | _ => True end.
  Definition taskOk (t : task) : Prop := Forall S (taskNames t).

  Lemma infix_names : forall op l t v m tk, Infix op l t v m tk -> idOk l -> idOk v -> idOk m /\ Forall taskOk tk.
  Proof.
    intros op l t v m tk H L V. destruct H; split; try exact I; repeat constructor; cbn; auto. destruct v; cbn; repeat constructor; auto.
  Qed.
  Lemma atom_names : forall X t nx n tk, Atom X t nx n tk -> tokOk t -> idOk n /\ Forall taskOk tk.
  Proof.
    intros X t nx n tk H L. destruct H; split; try exact I; repeat constructor; try exact (L eq_refl).
  Qed.

  Lemma grammar_names : forall X,
    (forall u nx n tk, Entry X u nx n tk -> Forall tokOk u -> idOk n /\ Forall taskOk tk) /\
    (forall u nx n tk, Nud X u nx n tk -> Forall tokOk u -> idOk n /\ Forall taskOk tk) /\
    (forall lst l u nx n tk, Tail X lst l u nx n tk -> Forall tokOk u -> idOk l -> idOk n /\ Forall taskOk tk) /\
    (forall es c ns tk, Entries X es c ns tk -> Forall tokOk es -> Forall taskOk tk).
  Proof.
    intros X. apply grammar_ind; intros;
      repeat match goal with
      | H : Forall tokOk (_ ++ _) |- _ => apply Forall_app in H; destruct H
      | H : Forall tokOk (_ :: _) |- _ => inversion H; clear H; subst
      end.
    all: repeat match goal with
      | H : Forall tokOk ?l -> _ |- _ => specialize (H ltac:(first [assumption|constructor; assumption]))
      | H : idOk _ -> _, K : idOk _ |- _ => specialize (H K)
      | H : idOk (NEntry _ _ _ _) -> _ |- _ => specialize (H Logic.I)
      | H : idOk (NRange _ _ _ _) -> _ |- _ => specialize (H Logic.I)
      | H : _ /\ _ |- _ => destruct H
      end.
    all: try (split; [assumption || exact Logic.I|]); try solve [try (apply Forall_app; split); auto].
    - eapply atom_names; eauto.
    - destruct (infix_names _ _ _ _ _ _ H2 H4 H1) as [? ?]. split; auto. apply Forall_app; auto.
  Qed.

  Lemma file_names : forall X ts eof r k d, File X ts eof r k d -> Forall tokOk ts -> Forall taskOk k.
  Proof.
    intros X ts eof r k d H. induction H; intros F; auto;
      repeat match goal with
      | H : Forall tokOk (_ ++ _) |- _ => apply Forall_app in H; destruct H
      | H : Forall tokOk (_ :: _) |- _ => inversion H; clear H; subst
      end; auto.
    - apply Forall_app. split; auto. eapply (proj1 (grammar_names X)); eauto.
    - apply Forall_app. split; auto. eapply (proj1 (grammar_names X)); eauto.
  Qed.
End Names.

Lemma reads_names : forall X s r k d, Reads X s r k d -> Forall (taskOk (mentions X s)) k.
Proof.
  intros X s r k d (ts & eof & HS & HF). eapply file_names; eauto. apply Forall_forall. intros t HT HI. exists ts, eof, t. auto.
Qed.

(** ** The generator *)

Lemma fileIs_app : forall X a b ds k, FileIs X (a ++ b) ds k <-> exists da ka db kb, FileIs X a da ka /\ FileIs X b db kb /\ ds = da ++ db /\ k = (ka + kb)%nat.
Proof.
  intros X a b. induction a as [|n a IH]; intros ds k; cbn [app].
  - split; [intros H; exists [], 0%nat, ds, k; repeat split; auto; constructor|]. intros (da & ka & db & kb & H & H' & -> & ->). inversion H; subst. exact H'.
  - split.
    + intros H. inversion H as [|p i v c l ds1 ds2 k1 m H1 H2|n' l ds' k' N1 N2 N3 N4 H1]; subst.
      * apply IH in H2. destruct H2 as (da & ka & db & kb & A & B & -> & ->). exists (ds1 ++ da), (k1 + ka)%nat, db, kb. rewrite app_assoc. repeat split; auto; [now constructor|lia].
      * apply IH in H1. destruct H1 as (da & ka & db & kb & A & B & -> & ->). exists da, ka, db, kb. repeat split; auto. now constructor.
    + intros (da & ka & db & kb & A & B & -> & ->). inversion A as [|p i v c l ds1 ds2 k1 m H1 H2|n' l ds' k' N1 N2 N3 N4 H1]; subst.
      * rewrite <- app_assoc, <- Nat.add_assoc. constructor; auto. apply IH. exists ds2, m, db, kb. auto.
      * constructor; auto. apply IH. exists da, ka, db, kb. auto.
Qed.

Lemma pieces_all : forall C bs ds k, FileIs (cGen C) (flat_map bRules bs) ds k <-> exists ps, Forall2 (pieceOf C) bs ps /\ ds = flat_map fst ps /\ k = list_sum (map snd ps).
Proof.
  intros C. induction bs as [|b bs IH]; intros ds k; cbn [flat_map].
  - split; [intros H; inversion H; subst; exists []; auto|]. intros (ps & H & -> & ->). inversion H; subst. constructor.
  - rewrite fileIs_app. split.
    + intros (da & ka & db & kb & A & B & -> & ->). apply IH in B. destruct B as (ps & F & -> & ->). exists ((da, ka) :: ps). auto.
    + intros (ps & H & -> & ->). inversion H as [|? p ? ps' HP H']; subst. exists (fst p), (snd p), (flat_map fst ps'), (list_sum (map snd ps')). repeat split; auto. apply IH. eauto.
Qed.

Lemma block_flat : forall X b, decodable (bSrc b) -> reads X [] (bSrc b) (bRules b) (bDefs b) -> flat (bRules b).
Proof.
  intros X b D (ds & p & E & _). intros q r HI. destruct (Props_Tree.returned_rules _ _ _ _ _ _ D E) as (ts & eof & _ & HR). rewrite Forall_forall in HR. specialize (HR _ HI).
  inversion HR as [c cms HC HIn E'| |]. destruct cms; discriminate E'.
Qed.

(** ** What the lines of blocks parse to *)

Lemma blocks_tasks : forall X bs, Forall (fun b => decodable (bSrc b) /\ reads X [] (bSrc b) (bRules b) (bDefs b) /\ endsPlain (bRules b)) bs -> exists ks, Forall2 (good X) bs ks.
Proof.
  intros X bs HB. induction HB as [|b bs (K1 & K2 & K3) _ IH]; [exists []; constructor|]. destruct IH as (ks & IH). destruct K2 as (ds & p & E & EE & HO).
  destruct (names_reads _ _ _ _ _ _ K1 E HO) as (r & d & Er & Ed & HR). injection Er as <-. rewrite EE in Ed. cbn [app] in Ed. subst d. exists (tasks p :: ks). constructor; auto. split; auto.
Qed.

Lemma blocks_parse : forall X bs ks, Forall2 (good X) bs ks -> NoDup (ParseTop.names (flat_map bDefs bs)) -> exists r ds p,
  parseSource X (parseFuel (lines (map bSrc bs))) (lines (map bSrc bs)) [] = Ok ((Some (NCDDL zeroPos r), ds), p) /\ map strip r = map strip (flat_map bRules bs) /\
  map bareDef (env p) = map bareDef (flat_map bDefs bs) /\ ds = collect (failures (env p) (tasks p)) /\ map bareTask (tasks p) = map bareTask (concat ks).
Proof.
  intros X l k H ND. destruct (lines_reads X l k H ND) as (r & k1 & d & R1 & R2 & R3 & R4).
  assert (DL : decodable (lines (map bSrc l))). { apply lines_good. apply Forall_map. clear - H. induction H as [|? ? ? ? [K _]]; constructor; auto. }
  destruct (reads_parse X _ [] _ _ _ DL R1) as (p & E & P1 & P2 & P3).
  - cbn [app]. now rewrite (names_bare _ _ R4).
  - cbn [app] in *. exists r, (collect (failures d k1)), p. rewrite P1, P2. auto.
Qed.

(** ** Property C95 *)

(** The file generated from accepted blocks has the pieces of the blocks in their order, whatever
    the other blocks are. *)
Theorem C95_pieces : forall X C pkg bs text, blocks X bs -> (exists t p, clean X (lines (map bSrc bs)) [] t p) ->
  (Compiled X C pkg (lines (map bSrc bs)) text <-> exists ps, Forall2 (pieceOf C) bs ps /\ text = render C pkg ps).
Proof.
  intros X C pkg bs text [HN HB] (t & p & CL). destruct (blocks_tasks X bs HB) as (ks & HK). destruct (blocks_parse X bs ks HK HN) as (r & ds & p' & E & R & _).
  unfold clean in CL. rewrite E in CL. injection CL as <- -> <-.
  assert (FL : flat (flat_map bRules bs)).
  { intros q n HI. apply in_flat_map in HI. destruct HI as (b & B1 & B2). rewrite Forall_forall in HB. destruct (HB b B1) as (D & RB & _). exact (block_flat X b D RB q n B2). }
  assert (V : forall g, visit (cGen C) (NCDDL zeroPos r) g = visit (cGen C) (NCDDL zeroPos (flat_map bRules bs)) g) by (intros g; apply C90_tree; unfold plain; cbn [strip]; now rewrite R).
  assert (E0 : parse X (lines (map bSrc bs)) = Ok ((Some (NCDDL zeroPos r), None), p')) by exact E. unfold Compiled. rewrite E0. split.
  - intros (root & q & g & P & Vg & ->). injection P as <- <-. rewrite V in Vg. apply (C36_file _ _ _ _ _ FL) in Vg. destruct Vg as (dl & k & F & ->). apply pieces_all in F. destruct F as (ps & F & -> & ->). exists ps. auto.
  - intros (ps & F & ->). exists (NCDDL zeroPos r), p', (add (flat_map fst ps) (list_sum (map snd ps)) (newGenerator pkg)). split; auto. split; auto. rewrite V. apply (C36_file _ _ _ _ _ FL). exists (flat_map fst ps), (list_sum (map snd ps)). split; auto. apply pieces_all. eauto.
Qed.

(** *** Leaving out *)

Lemma assoc_app : forall a b w, assoc w (a ++ b) = match assoc w a with Some v => Some v | None => assoc w b end.
Proof. induction a as [|[k v] a IH]; intros b w; cbn [app assoc]; auto. now destruct (beq k w). Qed.
Lemma assoc_none : forall e w, ~ In w (ParseTop.names e) -> assoc w e = None.
Proof.
  induction e as [|[k v] e IH]; intros w H; cbn [assoc]; auto. destruct (beq k w) eqn:E; [apply EnvProofs.beq_iff in E; subst; exfalso; apply H; left; auto|]. apply IH. intros K. apply H. now right.
Qed.

Lemma assoc_filter : forall (f : block -> bool) bs w, (forall b, In b bs -> f b = false -> ~ In w (ParseTop.names (bDefs b))) ->
  assoc w (flat_map bDefs bs) = assoc w (flat_map bDefs (filter f bs)).
Proof.
  intros f. induction bs as [|b bs IH]; intros w H; auto. cbn [flat_map filter]. rewrite assoc_app, (IH w) by (intros b' HB; apply H; now right). destruct (f b) eqn:E.
  - cbn [flat_map]. now rewrite assoc_app.
  - now rewrite (assoc_none (bDefs b)) by (apply H; [now left|auto]).
Qed.

Lemma nodup_filter : forall (f : block -> bool) bs, NoDup (ParseTop.names (flat_map bDefs bs)) -> NoDup (ParseTop.names (flat_map bDefs (filter f bs))).
Proof.
  intros f. assert (K : forall bs w, In w (ParseTop.names (flat_map bDefs (filter f bs))) -> In w (ParseTop.names (flat_map bDefs bs))).
  { intros bs w H. apply in_map_iff in H. destruct H as (x & <- & H). apply in_map. apply in_flat_map in H. destruct H as (b & B & X). apply filter_In in B. apply in_flat_map. exists b. tauto. }
  induction bs as [|b bs IH]; intros H; cbn [flat_map filter] in *; auto. unfold ParseTop.names in *. rewrite map_app in H. destruct (f b).
  - cbn [flat_map]. rewrite map_app. revert H. generalize (map fst (bDefs b)) as l. induction l as [|w l IHl]; intros H; cbn [app] in *; [auto|]. inversion H as [|? ? H1 H2]; subst. constructor; [|auto].
    intros HI. apply H1. apply in_app_iff in HI. apply in_app_iff. destruct HI as [HI|HI]; auto. 
  - apply IH. now apply nodup_app_r in H.
Qed.

Lemma filter_pairs : forall {A B} (R : A -> B -> Prop) (f : A -> bool) l m, Forall2 R l m -> exists m', Forall2 R (filter f l) m' /\ m' = map snd (filter (fun p => f (fst p)) (combine l m)).
Proof.
  intros A B R f l m H. induction H as [|a b l m HR H IH]; [exists []; split; [constructor|reflexivity]|].
  destruct IH as (m' & F & ->). cbn [filter combine fst]. destruct (f a); cbn [map snd]; eauto.
Qed.

(** Blocks can be left out if none of the other blocks mentions a name they define. *)
Definition unused (X : Ext) (f : block -> bool) (bs : list block) : Prop :=
  forall b b' w, In b bs -> In b' bs -> f b = true -> f b' = false -> In w (ParseTop.names (bDefs b')) -> ~ mentions X (bSrc b) w.

Theorem C95_leave_out : forall X f bs t p, blocks X bs -> unused X f bs -> clean X (lines (map bSrc bs)) [] t p ->
  exists t' p', clean X (lines (map bSrc (filter f bs))) [] t' p' /\
    strip t' = NCDDL zeroPos (map strip (flat_map bRules (filter f bs))) /\ map bareDef (env p') = map bareDef (flat_map bDefs (filter f bs)).
Proof.
  intros X f bs t p [HN HB] HU CL. destruct (blocks_tasks X bs HB) as (ks & HK). destruct (blocks_parse X bs ks HK HN) as (r & ds & p1 & E & _ & ED & EF & ET).
  unfold clean in CL. rewrite E in CL. injection CL as <- -> <-.
  destruct (filter_pairs _ f _ _ HK) as (ks' & HK' & EK). destruct (blocks_parse X _ ks' HK' (nodup_filter f bs HN)) as (r' & ds' & p2 & E' & R' & ED' & EF' & ET').
  exists (NCDDL zeroPos r'), p2. split; [|cbn [strip]; rewrite R'; auto]. unfold clean. rewrite E', EF'. repeat f_equal.
  assert (Z : failures (flat_map bDefs bs) (concat ks) = []).
  { assert (K : failures (env p1) (tasks p1) = []) by (destruct (failures (env p1) (tasks p1)); [auto|discriminate EF]).
    pose proof (failures_like _ _ _ _ ED ET) as L. rewrite K in L. now destruct (failures (flat_map bDefs bs) (concat ks)). }
  assert (Z' : failures (flat_map bDefs (filter f bs)) (concat ks') = []).
  { subst ks'. clear - HU HK Z. assert (G : forall l m, Forall2 (good X) l m -> incl l bs -> failures (flat_map bDefs bs) (concat m) = [] ->
      failures (flat_map bDefs (filter f bs)) (concat (map snd (filter (fun p => f (fst p)) (combine l m)))) = []).
    { intros l m H. induction H as [|b k l m HG H IH]; intros HI HZ; auto. cbn [concat] in HZ. unfold failures in HZ. rewrite flat_map_app in HZ. apply app_eq_nil in HZ. destruct HZ as [Z1 Z2].
      cbn [combine filter fst]. specialize (IH (fun x Q => HI x (or_intror Q)) Z2). destruct (f b) eqn:FB; auto. cbn [map concat snd]. unfold failures in *. rewrite flat_map_app, IH, app_nil_r.
      destruct HG as (_ & _ & HR). apply reads_names in HR. etransitivity; [|exact Z1]. clear - HR HU FB HI. induction HR as [|t k HT HR IH]; auto. cbn [flat_map]. rewrite IH. f_equal.
      rewrite (runTask_same (flat_map bDefs (filter f bs)) (flat_map bDefs bs) t); auto. intros w W. symmetry. apply assoc_filter. intros b' B' FB' HW. unfold taskOk in HT; rewrite Forall_forall in HT. exact (HU b b' w (HI b (or_introl eq_refl)) B' FB FB' HW (HT w W)). }
    apply G; auto. apply incl_refl. }
  pose proof (failures_like _ _ _ _ ED' ET') as L. rewrite Z' in L. now destruct (failures (env p2) (tasks p2)).
Qed.

(** Then exactly the pieces of these blocks are missing from the generated file. *)
Theorem C95_generated : forall X C pkg f bs text, blocks X bs -> unused X f bs -> Compiled X C pkg (lines (map bSrc bs)) text ->
  exists ps, Forall2 (pieceOf C) bs ps /\ text = render C pkg ps /\
    Compiled X C pkg (lines (map bSrc (filter f bs))) (render C pkg (map snd (filter (fun q => f (fst q)) (combine bs ps)))).
Proof.
  intros X C pkg f bs text HB HU HC. assert (CL : exists t p, clean X (lines (map bSrc bs)) [] t p).
  { destruct HC as (root & p & g & P & _). exists root, p. exact P. }
  destruct CL as (t & p & CL). destruct (C95_leave_out X f bs t p HB HU CL) as (t' & p' & CL' & _).
  apply C95_pieces in HC; eauto. destruct HC as (ps & F & ->). exists ps. split; auto. split; auto. destruct (filter_pairs _ f _ _ F) as (ps' & F' & <-). apply C95_pieces; eauto.
  destruct HB as [HN HB]. split; [now apply nodup_filter|]. rewrite Forall_forall in *. intros b B. apply filter_In in B. apply HB. tauto.
Qed.

(** ** Examples and refutation *)

(** Three blocks; the last is not used by the others. *)
Definition pieceA : bytes := str "a = [x: b, c: tstr .size 2]".
Definition pieceB : bytes := str "; the numbers" ++ 10 :: str "b = int".
Definition pieceC : bytes := str "d = [y: b] e = tstr .size 4".
Definition keepAB (b : block) : bool := negb (beq (bSrc b) pieceC).

Lemma no_mention : forall X s w ts eof, tokens X s ts eof -> forallb (fun t => negb (teq (tTok t) IDENT && beq (tLit t) w)) ts = true -> ~ mentions X s w.
Proof.
  intros X s w ts eof T H (ts' & eof' & t & T' & HI & E1 & E2). destruct (str_fun _ _ _ _ T _ _ T') as [<- _]. rewrite forallb_forall in H. specialize (H t HI).
  rewrite E1, E2, (proj2 (EnvProofs.beq_iff w w) eq_refl) in H. discriminate.
Qed.

Lemma piece_by : forall C b g, flat (bRules b) -> visit (cGen C) (NCDDL zeroPos (bRules b)) (newGenerator []) = Ok g -> pieceOf C b (gDecls g, length (gImports g)).
Proof.
  intros C b g F V. apply (C36_file _ _ _ _ _ F) in V. destruct V as (ds & k & H & ->). unfold pieceOf, add. cbn [fst snd gDecls gImports newGenerator app]. now rewrite repeat_length.
Qed.

Definition pieceG (b : block) : generator := match visit (cGen sampleCli) (NCDDL zeroPos (bRules b)) (newGenerator []) with Ok g => g | _ => newGenerator [] end.
Definition pieceP (b : block) : piece := (gDecls (pieceG b), length (gImports (pieceG b))).

Lemma forall2_maps : forall {A B C} (R : B -> C -> Prop) (g : A -> B) (h : B -> C) l, Forall (fun x => R (g x) (h (g x))) l -> Forall2 R (map g l) (map h (map g l)).
Proof. intros A B C R g h l H. induction H; cbn; auto. Qed.

Lemma block_by : forall s, decodable s -> (exists p, parseSource X0 (parseFuel s) s [] = Ok ((Some (NCDDL zeroPos (ruleList s)), fst p), snd p) /\ env (snd p) = defList s /\ Forall ofNames (Props_Append.listed (fst p))) -> endsPlain (ruleList s) ->
  decodable (bSrc (blockOf s)) /\ reads X0 [] (bSrc (blockOf s)) (bRules (blockOf s)) (bDefs (blockOf s)) /\ endsPlain (bRules (blockOf s)).
Proof. intros s D ([ds p] & E & EE & F) HP. split; [exact D|]. split; [exists ds, p; auto|exact HP]. Qed.

Ltac mentioned n := match goal with |- ~ mentions X0 ?s _ =>
  let r := eval vm_compute in (match scans X0 n (newLexer s) with Ok (ts, _) => (removelast ts, last ts zeroTok) | _ => ([], zeroTok) end) in
  apply (no_mention X0 s _ (fst r) (snd r)); [eapply tokens_by_scans; [now apply good_by_ascii|vm_compute; reflexivity|reflexivity|reflexivity]|reflexivity] end.

Example C95_ex : let bs := map blockOf [pieceA; pieceB; pieceC] in
  blocks X0 bs /\ unused X0 keepAB bs /\ (exists text, Compiled X0 sampleCli (str "main") (lines (map bSrc bs)) text) /\
  map (fun b => length (bRules b)) (filter keepAB bs) = [1; 2]%nat /\
  exists ps, Forall2 (pieceOf sampleCli) bs ps /\ map snd ps = [1; 0; 1]%nat /\ map (fun p => length (fst p)) ps = [2; 2; 4]%nat.
Proof.
  cbv zeta. assert (B : blocks X0 (map blockOf [pieceA; pieceB; pieceC])).
  { split; [vm_compute; repeat constructor; cbn; intuition discriminate|].
    constructor; [|constructor; [|constructor; [|constructor]]]; apply block_by; try (now apply good_by_ascii); try (split; vm_compute; reflexivity);
      (eexists (_, _); split; [vm_compute; reflexivity|]; split; [vm_compute; reflexivity|]; cbn; repeat constructor). }
  split; [exact B|]. split.
  - assert (NC : ParseTop.names (bDefs (blockOf pieceC)) = [str "d"; str "e"]) by (vm_compute; reflexivity).
    assert (KA : keepAB (blockOf pieceA) = true) by (vm_compute; reflexivity). assert (KB : keepAB (blockOf pieceB) = true) by (vm_compute; reflexivity).
    assert (KC : keepAB (blockOf pieceC) = false) by (vm_compute; reflexivity).
    intros b b' w HB HB' F F' W. destruct HB' as [<- |[<- |[<- |[]]]]; [rewrite KA in F'; discriminate|rewrite KB in F'; discriminate|]. rewrite NC in W.
    destruct HB as [<- |[<- |[<- |[]]]]; [| |rewrite KC in F; discriminate]; destruct W as [<- |[<- |[]]]; cbn [bSrc blockOf].
    + mentioned 14%nat.
    + mentioned 14%nat.
    + mentioned 5%nat.
    + mentioned 5%nat.
  - split; [do 4 eexists; split; [vm_compute; reflexivity|]; split; [vm_compute; reflexivity|reflexivity]|]. split; [vm_compute; reflexivity|].
    assert (FL : forall b, In b (map blockOf [pieceA; pieceB; pieceC]) -> flat (bRules b)).
    { intros b HB. destruct B as [_ B]. rewrite Forall_forall in B. destruct (B b HB) as (D & R & _). exact (block_flat X0 b D R). }
    assert (P : forall s, In (blockOf s) (map blockOf [pieceA; pieceB; pieceC]) -> visit (cGen sampleCli) (NCDDL zeroPos (bRules (blockOf s))) (newGenerator []) = Ok (pieceG (blockOf s)) -> pieceOf sampleCli (blockOf s) (pieceP (blockOf s))).
    { intros s HI V. apply piece_by; [now apply FL|exact V]. }
    exists (map pieceP (map blockOf [pieceA; pieceB; pieceC])). split; [|split; vm_compute; reflexivity].
    apply forall2_maps. constructor; [apply (P pieceA); [left; reflexivity|vm_compute; reflexivity]|]. constructor; [apply (P pieceB); [right; left; reflexivity|vm_compute; reflexivity]|].
    constructor; [apply (P pieceC); [right; right; left; reflexivity|vm_compute; reflexivity]|constructor].
Qed.

(** Without a block that is used the file is refused. *)
Theorem C95_used_refuted : let bs := map blockOf [pieceA; pieceB; pieceC] in
  blocks X0 bs /\ (exists t p, clean X0 (lines (map bSrc bs)) [] t p) /\ forall t p, ~ clean X0 (lines (map bSrc (filter (fun b => negb (beq (bSrc b) pieceB)) bs))) [] t p.
Proof.
  cbv zeta. split; [apply C95_ex|]. split; [do 2 eexists; vm_compute; reflexivity|]. intros t p H. unfold clean in H.
  set (s := lines _) in H. assert (K : match parseSource X0 (parseFuel s) s [] with Ok ((Some _, None), _) => true | _ => false end = false) by (vm_compute; reflexivity).
  rewrite H in K. discriminate.
Qed.
