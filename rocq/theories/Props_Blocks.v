(** Property C88: the order of the rules of a file does not matter. *)
From Coq Require Import String Permutation.
From Verif Require Import Base Utf8 Token Strconv Ext Lexer LexSpec LexSpec2 LexSpec3 LexerProofs LexOne LexSeq LexWords Ast Env Diag Doc DocText Parser ParseSpec ParseStream ParseFacts
  ParseFrame ParseTop ParseSource ParseTree ParseUnique ParseSound ParseTwin ParseLayout ParseLocal ParseConcat Props_Lexer Props_LexFull Props_Parser Props_Layout Props_Append Props_Concat Props_Order.
Open Scope string_scope.
Open Scope list_scope.
Open Scope Z_scope.

(** ** Specification *)

(** Sources on lines after each other. *)
Fixpoint lines (l : list bytes) : bytes :=
  match l with
  | [] => []
  | [a] => a
  | a :: r => a ++ 10 :: lines r
  end.

(** A source whose parse gives these rules and definitions. All that may be wrong with it has
    to do with names defined elsewhere. *)
Definition reads (X : Ext) (e : environment) (s : bytes) (r : list node) (d : environment) : Prop :=
  exists ds p, parseSource X (parseFuel s) s e = Ok ((Some (NCDDL zeroPos r), ds), p) /\ env p = e ++ d /\ Forall ofNames (listed ds).

(** The last of the rules is no comment and has none. *)
Definition endsPlain (r : list node) : Prop := commented (last r NNil) = false /\ isComment (last r NNil) = false.

Record block : Type := mkBlock { bSrc : bytes; bRules : list node; bDefs : environment }.

(** ** Files *)

Definition Reads (X : Ext) (s : bytes) (r : list node) (k : list task) (d : environment) : Prop :=
  exists ts eof, Str X (newLexer s) ts (FEof eof) /\ File X ts eof r k d.

Lemma parse_reads : forall X s e t ds p, decodable s -> parseSource X (parseFuel s) s e = Ok ((Some t, ds), p) -> length (perrors p) = length (failures (env p) (tasks p)) ->
  exists r d, t = NCDDL zeroPos r /\ env p = e ++ d /\ Reads X s r (tasks p) d.
Proof.
  intros X s e t ds p D E HN. destruct (new_str X s D) as (ts & f & k & HS & HC & _ & HL & HE).
  assert (HF : (length ts <= parseFuel s)%nat) by (unfold parseFuel; lia).
  pose proof (source_post X _ s e (parseFuel s) ts f HS HF (posOk_true ts f)) as H. rewrite E in H. cbn [wp] in H.
  destruct H as (t2 & l2 & H2 & [(_ & H3 & _)|(H3 & rules & tk & df & ds' & H4 & H5 & H6 & H7 & H8 & H9 & H10 & H11 & H12)]); [discriminate|].
  injection H4 as -> _. exists rules, df. split; auto. split; auto. exists ts, (eofOf f). split; [congruence|]. rewrite H7. apply H12.
  rewrite H5, H8, H7, app_length in HN. destruct ds'; auto. cbn [length] in HN. lia.
Qed.

Lemma names_reads : forall X s e t ds p, decodable s -> parseSource X (parseFuel s) s e = Ok ((Some t, ds), p) -> Forall ofNames (listed ds) ->
  exists r d, t = NCDDL zeroPos r /\ env p = e ++ d /\ Reads X s r (tasks p) d.
Proof.
  intros X s e t ds p D E HN. destruct (order_parts _ _ _ _ _ _ _ D E) as (now & P1 & P2 & _ & P3 & _). eapply parse_reads; eauto.
  rewrite P1. destruct now as [|x now]; auto. exfalso. rewrite P2, P1 in HN. inversion HN; subst. inversion P3; subst. contradiction.
Qed.

Lemma reads_parse : forall X s e r k d, decodable s -> Reads X s r k d -> NoDup (names (e ++ d)) ->
  exists p, parseSource X (parseFuel s) s e = Ok ((Some (NCDDL zeroPos r), collect (failures (e ++ d) k)), p) /\ env p = e ++ d /\ tasks p = k /\ perrors p = failures (e ++ d) k.
Proof.
  intros X s e r k d D (ts & eof & HS & HF) HN. destruct (new_str X s D) as (ts' & f & ? & HS' & _ & _ & HL & _). destruct (str_fun _ _ _ _ HS _ _ HS') as [<- <-].
  destruct (file_two _ _ _ _ _ _ HF (str_eofTok _ _ _ _ HS)) as [W1 W2]. destruct (two_noerr X s _ _ D HS W1 W2) as (t3 & l3 & S2 & R2).
  eapply source_gen; eauto. unfold parseFuel. lia.
Qed.

Lemma reads_unique : forall X s r k d r' k' d', Reads X s r k d -> Reads X s r' k' d' -> r = r' /\ k = k' /\ d = d'.
Proof.
  intros X s r k d r' k' d' (ts & eof & HS & HF) (ts' & eof' & HS' & HF'). destruct (str_fun _ _ _ _ HS _ _ HS') as [<- E]. injection E as <-.
  eapply C48_file_unambiguous; eauto.
Qed.

Lemma failures_like : forall e e' k k', map bareDef e = map bareDef e' -> map bareTask k = map bareTask k' -> map bare (failures e k) = map bare (failures e' k').
Proof.
  intros e e' k. unfold failures. induction k as [|t k IH]; intros [|t' k'] HE HK; try discriminate HK; auto. cbn [map] in HK.
  assert (H1 : bareTask t = bareTask t') by congruence. assert (H2 : map bareTask k = map bareTask k') by congruence.
  cbn [flat_map]. rewrite !map_app, (IH k' HE H2). f_equal. pose proof (runTask_like e e' t t' HE H1) as K. destruct (runTask e t), (runTask e' t'); try discriminate K; auto. cbn [option_map map] in *. congruence.
Qed.

(** The same source after blanks. *)
Lemma reads_blot : forall X a b r k d, decodable a -> decodable b -> Reads X b r k d -> NoDup (names d) ->
  exists r' k' d', Reads X (blot a ++ 10 :: b) r' k' d' /\ map strip r' = map strip r /\ map bareTask k' = map bareTask k /\ map bareDef d' = map bareDef d.
Proof.
  intros X a b r k d DA DB HR HN. destruct (decodable_join a b DA DB) as [_ DZ]. destruct (reads_parse X b [] r k d DB HR HN) as (p & E & P1 & P2 & P3).
  destruct HR as (tb & eb & TB & _). pose proof (layout_like X b _ [] [] DB DZ (reflow_blot X a b _ _ DB TB) eq_refl) as HL. rewrite E in HL.
  destruct (parseSource X (parseFuel (blot a ++ 10 :: b)) (blot a ++ 10 :: b) []) as [[[tz dz] pz]| | |] eqn:CZ; cbn [relRes] in HL; try contradiction.
  destruct HL as (L1 & L2 & L3 & L4 & L5). cbn [fst snd] in *. destruct tz as [tz|]; [|discriminate L1].
  destruct (parse_reads _ _ _ _ _ _ DZ CZ) as (r' & d' & -> & D' & R').
  { rewrite <- (map_length bare (perrors pz)), <- L3, P3. cbn [app]. rewrite (failures_like d (env pz) k (tasks pz)); [now rewrite map_length| |]; [rewrite <- L4, P1; reflexivity|rewrite <- L5, P2; reflexivity]. }
  cbn [app] in D'. exists r', (tasks pz), d'. split; auto. cbn [option_map strip] in L1. injection L1 as L1. split; [now symmetry|]. split; [rewrite <- L5, P2; reflexivity|]. rewrite <- D', <- L4, P1. reflexivity.
Qed.

Lemma reads_join : forall X a b ra ka da rb kb db, decodable a -> decodable b -> Reads X a ra ka da -> Reads X b rb kb db -> NoDup (names db) -> endsPlain ra ->
  exists rb' kb' db', Reads X (a ++ 10 :: b) (ra ++ rb') (ka ++ kb') (da ++ db') /\ map strip rb' = map strip rb /\ map bareTask kb' = map bareTask kb /\ map bareDef db' = map bareDef db.
Proof.
  intros X a b ra ka da rb kb db DA DB (ta & ea & TA & FA) HB HN [J1 J2]. destruct (reads_blot X a b _ _ _ DA DB HB HN) as (r' & k' & d' & (us & ez & TZ & FZ) & K1 & K2 & K3).
  destruct HB as (tb & eb & TB & _). destruct (joined_tokens X a b _ _ _ _ _ _ DA DB TA TB TZ) as [TS OL].
  exists r', k', d'. split; auto. exists (ta ++ us), ez. split; auto. eapply file_app; eauto using str_eofTok. split; auto. congruence.
Qed.

(** ** Many blocks *)

Lemma names_bare : forall d d', map bareDef d = map bareDef d' -> names d = names d'.
Proof. exact bare_names. Qed.

Lemma nodup_app_r : forall {A} (a b : list A), NoDup (a ++ b) -> NoDup b.
Proof. intros A a. induction a as [|x a IH]; intros b H; auto. inversion H; auto. Qed.

Definition good (X : Ext) (b : block) (k : list task) : Prop := decodable (bSrc b) /\ endsPlain (bRules b) /\ Reads X (bSrc b) (bRules b) k (bDefs b).

Lemma lines_good : forall l, Forall decodable l -> decodable (lines l).
Proof.
  induction l as [|a [|b l] IH]; intros H; cbn [lines]; [apply good_nil|now inversion H|]. inversion H; subst. apply (decodable_join a (lines (b :: l))); auto.
Qed.

Lemma lines_reads : forall X bs ks, Forall2 (good X) bs ks -> NoDup (names (flat_map bDefs bs)) ->
  exists r k d, Reads X (lines (map bSrc bs)) r k d /\ map strip r = map strip (flat_map bRules bs) /\ map bareTask k = map bareTask (concat ks) /\ map bareDef d = map bareDef (flat_map bDefs bs).
Proof.
  intros X bs ks H. induction H as [|b k bs ks HB H IH]; intros HN.
  - exists [], [], []. split; [|auto]. exists [], (mkTok EOF (posAt [] (length (@nil Z))) []). split; [|constructor]. apply (end_str X [] _). exact (newLexer_st [] good_nil).
  - destruct HB as (HD & HP & HR). cbn [flat_map] in HN. unfold names in HN. rewrite map_app in HN. fold (names (bDefs b)) (names (flat_map bDefs bs)) in HN.
    destruct (IH (nodup_app_r _ _ HN)) as (r & k1 & d & R1 & R2 & R3 & R4). cbn [map flat_map concat]. destruct bs as [|b2 bs].
    + inversion H; subst. cbn [lines map flat_map concat]. exists (bRules b), k, (bDefs b). rewrite !app_nil_r. auto.
    + change (lines (bSrc b :: map bSrc (b2 :: bs))) with (bSrc b ++ 10 :: lines (map bSrc (b2 :: bs))).
      assert (DL : decodable (lines (map bSrc (b2 :: bs)))). { apply lines_good. apply Forall_map. clear - H. induction H as [|? ? ? ? [K _]]; constructor; auto. }
      destruct (reads_join X _ _ _ _ _ _ _ _ HD DL HR R1) as (r' & k' & d' & S1 & S2 & S3 & S4); auto; [rewrite (names_bare _ _ R4); now apply nodup_app_r in HN|].
      exists (bRules b ++ r'), (k ++ k'), (bDefs b ++ d'). split; auto. rewrite !map_app, S2, S3, S4, R2, R3, R4. auto.
Qed.

(** ** Checks in a permuted environment *)

Lemma assoc_in : forall e w v, NoDup (names e) -> (assoc w e = Some v <-> In (w, v) e).
Proof.
  induction e as [|[k n] e IH]; intros w v H; cbn [assoc In]; [split; [discriminate|contradiction]|]. cbn [names map fst] in H. inversion H as [|? ? H1 H2]; subst. destruct (beq k w) eqn:E.
  - apply beq_eq in E. subst k. split; [intros K; injection K as <-; auto|]. intros [K|K]; [congruence|]. exfalso. apply H1. apply (in_map fst) in K. exact K.
  - rewrite (IH w v H2). split; auto. intros [K|K]; auto. injection K as -> ->. rewrite (proj2 (beq_eq w w) eq_refl) in E. discriminate.
Qed.

Lemma assoc_perm : forall e e' w, Permutation e e' -> NoDup (names e) -> assoc w e = assoc w e'.
Proof.
  intros e e' w P H. assert (H' : NoDup (names e')) by (eapply Permutation_NoDup; [apply Permutation_map; exact P|exact H]).
  destruct (assoc w e) as [v|] eqn:E.
  - symmetry. apply assoc_in; auto. eapply Permutation_in; [exact P|]. now apply assoc_in.
  - destruct (assoc w e') as [v|] eqn:E'; auto. apply assoc_in in E'; auto. apply Permutation_sym in P. apply (Permutation_in _ P) in E'. apply assoc_in in E'; auto. congruence.
Qed.

Lemma runTask_perm : forall e e' t, Permutation e e' -> NoDup (names e) -> runTask e t = runTask e' t.
Proof.
  intros e e' t P H. assert (G : forall w, get e w = get e' w) by (intros w; unfold get; now rewrite (assoc_perm e e')).
  assert (B : forall w, exists_ e w = exists_ e' w) by (intros w; unfold exists_; now rewrite (assoc_perm e e')).
  destruct t; cbn [runTask]; rewrite ?B, ?G; auto. destruct to; auto. now rewrite !G.
Qed.

Lemma failures_perm : forall e e' k k', Permutation (map bareDef e) (map bareDef e') -> NoDup (names e) -> Permutation (map bareTask k) (map bareTask k') ->
  Permutation (map bare (failures e k)) (map bare (failures e' k')).
Proof.
  intros e e' k k' PE HN PK. destruct (Permutation_map_inv _ _ (Permutation_sym PE)) as (e1 & E1 & P1).
  destruct (Permutation_map_inv _ _ (Permutation_sym PK)) as (k1 & K1 & P2).
  rewrite (failures_like e' e1 k' k1); auto. unfold failures. rewrite (flat_map_ext _ (fun t => match runTask e1 t with Some d => [d] | None => [] end)).
  - apply Permutation_map. now apply Permutation_flat_map.
  - intros t. now rewrite (runTask_perm e e1 t P1 HN).
Qed.

(** ** C88 *)

Lemma perm_forall2 : forall {A B} (R : A -> B -> Prop) l l', Permutation l l' -> forall k, Forall2 R l k -> exists k', Permutation k k' /\ Forall2 R l' k'.
Proof.
  intros A B R l l' P. induction P as [|x l l' P IH|x y l|l l1 l2 P1 IH1 P2 IH2]; intros k H.
  - inversion H. eauto.
  - inversion H as [|? b ? k0 HB HR]; subst. destruct (IH _ HR) as (k' & K1 & K2). exists (b :: k'). auto.
  - inversion H as [|? b ? k0 HB HR]; subst. inversion HR as [|? c ? k1 HC HR']; subst. exists (c :: b :: k1). split; [constructor|auto].
  - destruct (IH1 _ H) as (k1 & K1 & K2). destruct (IH2 _ K2) as (k2 & K3 & K4). exists k2. split; auto. eapply perm_trans; eauto.
Qed.

(** Blocks of rules in one order and in another. *)
Theorem C88_order : forall X e bs bs', NoDup (names (e ++ flat_map bDefs bs)) ->
  Forall (fun b => decodable (bSrc b) /\ reads X e (bSrc b) (bRules b) (bDefs b) /\ endsPlain (bRules b)) bs -> Permutation bs bs' ->
  exists r ds p r' ds' p',
    parseSource X (parseFuel (lines (map bSrc bs))) (lines (map bSrc bs)) e = Ok ((Some (NCDDL zeroPos r), ds), p) /\
    parseSource X (parseFuel (lines (map bSrc bs'))) (lines (map bSrc bs')) e = Ok ((Some (NCDDL zeroPos r'), ds'), p') /\
    map strip r = map strip (flat_map bRules bs) /\ map strip r' = map strip (flat_map bRules bs') /\
    Permutation (map bareDef (env p)) (map bareDef (env p')) /\ Permutation (map bare (listed ds)) (map bare (listed ds')).
Proof.
  intros X e bs bs' HN HB P.
  assert (HK : exists ks, Forall2 (good X) bs ks).
  { clear P HN. induction HB as [|b bs (K1 & K2 & K3) _ IH]; [exists []; constructor|]. destruct IH as (ks & IH). destruct K2 as (ds & p & E & EE & HO).
    destruct (names_reads _ _ _ _ _ _ K1 E HO) as (r & d & Er & Ed & HR). injection Er as <-. rewrite EE in Ed. apply app_inv_head in Ed. subst d. exists (tasks p :: ks). constructor; auto. split; auto. }
  destruct HK as (ks & HK). destruct (perm_forall2 _ _ _ P _ HK) as (ks' & PK & HK').
  assert (GO : forall l k, Forall2 (good X) l k -> NoDup (names (e ++ flat_map bDefs l)) -> exists r ds p d k1,
    parseSource X (parseFuel (lines (map bSrc l))) (lines (map bSrc l)) e = Ok ((Some (NCDDL zeroPos r), ds), p) /\ map strip r = map strip (flat_map bRules l) /\
    env p = e ++ d /\ map bareDef d = map bareDef (flat_map bDefs l) /\ map bareTask k1 = map bareTask (concat k) /\ listed ds = failures (e ++ d) k1).
  { intros l k H ND. assert (ND' := ND). unfold names in ND'. rewrite map_app in ND'. apply nodup_app_r in ND'. destruct (lines_reads X l k H ND') as (r & k1 & d & R1 & R2 & R3 & R4).
    assert (DL : decodable (lines (map bSrc l))). { apply lines_good. apply Forall_map. clear - H. induction H as [|? ? ? ? [K _]]; constructor; auto. }
    destruct (reads_parse X _ e _ _ _ DL R1) as (p & E & P1 & P2 & P3).
    - unfold names in *. rewrite map_app in *. fold (names d) (names (flat_map bDefs l)) in *. now rewrite (names_bare _ _ R4).
    - exists r, (collect (failures (e ++ d) k1)), p, d, k1. repeat split; auto. destruct (failures (e ++ d) k1); reflexivity. }
  assert (HN' : NoDup (names (e ++ flat_map bDefs bs'))).
  { eapply Permutation_NoDup; [|exact HN]. apply Permutation_map. apply Permutation_app_head. now apply Permutation_flat_map. }
  destruct (GO _ _ HK HN) as (r & ds & p & d & k1 & A1 & A2 & A3 & A4 & A5 & A6). destruct (GO _ _ HK' HN') as (r' & ds' & p' & d' & k2 & B1 & B2 & B3 & B4 & B5 & B6).
  assert (PD : Permutation (map bareDef (e ++ d)) (map bareDef (e ++ d'))).
  { rewrite !map_app, A4, B4. apply Permutation_app_head, Permutation_map. now apply Permutation_flat_map. }
  exists r, ds, p, r', ds', p'. split; auto. split; auto. split; auto. split; auto. split; [rewrite A3, B3; exact PD|]. rewrite A6, B6. apply failures_perm; auto.
  - unfold names in *. rewrite map_app in *. fold (names d) (names (flat_map bDefs bs)) in *. now rewrite (names_bare _ _ A4).
  - rewrite A5, B5. apply Permutation_map. clear - PK. induction PK; cbn [concat]; auto.
    + now apply Permutation_app_head.
    + rewrite !app_assoc. apply Permutation_app_tail. apply Permutation_app_comm.
    + eapply perm_trans; eauto.
Qed.

(** So the order does not matter for acceptance. *)
Corollary C88_accepted : forall X e bs bs', NoDup (names (e ++ flat_map bDefs bs)) ->
  Forall (fun b => decodable (bSrc b) /\ reads X e (bSrc b) (bRules b) (bDefs b) /\ endsPlain (bRules b)) bs -> Permutation bs bs' ->
  (exists t p, clean X (lines (map bSrc bs)) e t p) -> exists t p, clean X (lines (map bSrc bs')) e t p.
Proof.
  intros X e bs bs' HN HB P (t & p0 & H). destruct (C88_order X e bs bs' HN HB P) as (r & ds & p & r' & ds' & p' & E & E' & _ & _ & _ & PD).
  unfold clean in *. rewrite E in H. injection H as _ -> _. cbn [listed map] in PD. apply Permutation_nil in PD. exists (NCDDL zeroPos r'), p'. rewrite E'. repeat f_equal.
  destruct ds' as [[|x l]|]; auto; [|discriminate PD]. exfalso.
  assert (K : forall X s e r ds p, parseSource X (parseFuel s) s e = Ok ((r, ds), p) -> ds <> Some []).
  { clear. intros X s e r ds p K. unfold parseSource in K. destruct (newParser X (newLexer s) e) as [q| | |]; try discriminate. cbn [rbind] in K. unfold parseFile in K. destruct (errors (lx q)); [|injection K as _ <- _; discriminate].
    destruct (fileLoop X (parseFuel s) (parseFuel s) [] q) as [[rules p1]| | |]; try discriminate. cbn [rbind] in K. injection K as _ <- _. unfold collect. destruct (perrors (runTasks p1)); discriminate. }
  exact (K _ _ _ _ _ _ E' eq_refl).
Qed.

(** Three blocks that refer to each other, and to a name none of them defines. *)
Definition blockA : bytes := str "a = { x: b, y: c }".
Definition blockB : bytes := str "; the numbers" ++ 10 :: str "b = 1" ++ 10 :: str "n = 0..b".
Definition blockC : bytes := str "c = [* d]".

Definition ruleList (s : bytes) : list node := match parseSource X0 (parseFuel s) s [] with Ok ((Some (NCDDL _ r), _), _) => r | _ => [] end.
Definition defList (s : bytes) : environment := match parseSource X0 (parseFuel s) s [] with Ok (_, p) => env p | _ => [] end.
Definition blockOf (s : bytes) : block := mkBlock s (ruleList s) (defList s).

Example C88_ex : let bs := map blockOf [blockA; blockB; blockC] in
  NoDup (names ([] ++ flat_map bDefs bs)) /\
  Forall (fun b => decodable (bSrc b) /\ reads X0 [] (bSrc b) (bRules b) (bDefs b) /\ endsPlain (bRules b)) bs /\ map (fun b => length (bRules b)) bs = [1; 3; 1]%nat.
Proof.
  cbv zeta. split; [vm_compute; repeat constructor; cbn; intuition discriminate|]. split; [|vm_compute; reflexivity].
  assert (K : forall s, decodable s -> (exists p, parseSource X0 (parseFuel s) s [] = Ok ((Some (NCDDL zeroPos (ruleList s)), fst p), snd p) /\ env (snd p) = defList s /\ Forall ofNames (listed (fst p))) -> endsPlain (ruleList s) ->
    decodable (bSrc (blockOf s)) /\ reads X0 [] (bSrc (blockOf s)) (bRules (blockOf s)) (bDefs (blockOf s)) /\ endsPlain (bRules (blockOf s))).
  { intros s D ([ds p] & E & EE & F) HP. split; [exact D|]. split; [exists ds, p; auto|exact HP]. }
  constructor; [|constructor; [|constructor; [|constructor]]]; apply K; try (now apply good_by_ascii); try (split; vm_compute; reflexivity);
    (eexists (_, _); split; [vm_compute; reflexivity|]; split; [vm_compute; reflexivity|]; cbn; repeat constructor).
Qed.

(** Of two definitions of a name the first counts, so their order matters. *)
Theorem C88_twice_refuted : exists a b ra rb da db p p' ds ds', decodable a /\ decodable b /\ reads X0 [] a ra da /\ reads X0 [] b rb db /\ endsPlain ra /\ endsPlain rb /\
  parseSource X0 (parseFuel (lines [a; b])) (lines [a; b]) [] = Ok ((Some (NCDDL zeroPos (ra ++ ds)), fst p), snd p) /\
  parseSource X0 (parseFuel (lines [b; a])) (lines [b; a]) [] = Ok ((Some (NCDDL zeroPos (rb ++ ds')), fst p'), snd p') /\
  ~ Permutation (map bareDef (env (snd p))) (map bareDef (env (snd p'))).
Proof.
  exists (str "x = 1"), (str "x = int"). do 4 eexists. eexists (_, _), (_, _). do 2 eexists. split; [now apply good_by_ascii|]. split; [now apply good_by_ascii|].
  split; [eexists; eexists; split; [vm_compute; reflexivity|split; [reflexivity|constructor]]|].
  split; [eexists; eexists; split; [vm_compute; reflexivity|split; [reflexivity|constructor]]|].
  split; [split; reflexivity|]. split; [split; reflexivity|]. split; [vm_compute; reflexivity|]. split; [vm_compute; reflexivity|].
  cbn. intros P. apply Permutation_length_1 in P. discriminate P.
Qed.

(** A comment at the end of a block, on the line of a rule, takes a token of the next block. *)
Theorem C88_comment_refuted : exists a b, decodable a /\ decodable b /\
  (exists ra da, reads X0 [] a ra da) /\ (exists rb db, reads X0 [] b rb db) /\
  (exists t p, clean X0 (lines [a; b]) [] t p) /\ ~ exists t p, clean X0 (lines [b; a]) [] t p.
Proof.
  exists (str "x = 1"), (str "y = int ; last"). split; [now apply good_by_ascii|]. split; [now apply good_by_ascii|].
  split; [do 2 eexists; eexists; eexists; split; [vm_compute; reflexivity|split; [reflexivity|constructor]]|].
  split; [do 2 eexists; eexists; eexists; split; [vm_compute; reflexivity|split; [reflexivity|constructor]]|].
  split; [do 2 eexists; vm_compute; reflexivity|]. intros (t & p & H). vm_compute in H. discriminate H.
Qed.
