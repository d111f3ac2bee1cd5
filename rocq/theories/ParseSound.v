(** Every run of the parser on a token stream ends (or panics), consumes a prefix
    of it, and what it accepts is in the grammar of ParseSpec.v. *)
From Coq Require Import String.
From Verif Require Import Base Token Strconv Ext Lexer Ast Env Diag Parser ParseSpec ParseStream ParseFacts.
From Verif Require LexWords.
Open Scope string_scope.
Open Scope list_scope.
Open Scope Z_scope.

(** The computation panics or ends in a state satisfying [Q]. *)
Definition wp {A} (r : res A) (Q : A -> Prop) : Prop :=
  match r with Ok a => Q a | Panic => True | _ => False end.

Lemma wp_bind : forall A B (e : res A) (k : A -> res B) Q,
  wp e (fun a => wp (k a) Q) -> wp (rbind e k) Q.
Proof. intros A B [] k Q H; simpl in *; auto. Qed.

Lemma wp_mono : forall A (e : res A) (Q R : A -> Prop), wp e Q -> (forall a, Q a -> R a) -> wp e R.
Proof. intros A [] Q R H HQ; simpl in *; auto. Qed.

Lemma wp_pnext : forall X p ts f (Q : parser -> Prop), Toks X p ts f ->
  (forall p', Toks X p' (tl ts) f -> same p' p -> Q p') -> wp (pnext X p) Q.
Proof.
  intros X p ts f Q H HQ. destruct (pnext_toks _ _ _ _ H) as [(_ & _ & E)|(p' & E & H1 & H2)]; rewrite E; simpl; auto.
Qed.

(** Suffixes. *)
Definition suf (a b : list tokInfo) : Prop := exists c, b = c ++ a.
Lemma suf_refl : forall a, suf a a.
Proof. intros a; now exists []. Qed.
Lemma suf_trans : forall a b c, suf a b -> suf b c -> suf a c.
Proof. intros a b c [x ->] [y ->]. exists (y ++ x). apply app_assoc. Qed.
Lemma suf_tl : forall a b, suf a b -> suf (tl a) b.
Proof. intros [|t a] b [x ->]; [now exists x|]. exists (x ++ [t]). now rewrite <- app_assoc. Qed.
Lemma suf_cons : forall t a b, suf a b -> suf a (t :: b).
Proof. intros t a b [x ->]. now exists (t :: x). Qed.
Lemma suf_len : forall a b, suf a b -> (length a <= length b)%nat.
Proof. intros a b [x ->]. rewrite app_length. lia. Qed.
Lemma suf_app : forall a c, suf a (c ++ a).
Proof. intros a c; now exists c. Qed.
Lemma suf_last : forall t u rest, suf (lastOf u t :: rest) (t :: u ++ rest).
Proof.
  intros t u rest. unfold lastOf. destruct u as [|x u] using rev_ind; [apply suf_refl|].
  rewrite last_last. exists (t :: u). simpl. now rewrite <- app_assoc.
Qed.

(** Positions in the stream satisfy [P]. *)
Definition posOk (P : position -> Prop) (ts : list tokInfo) (f : fin) : Prop :=
  Forall (fun t => P (tPos t)) ts /\ (f <> FPanic -> P (tPos (eofOf f))).

Lemma posOk_suf : forall P a b f, suf a b -> posOk P b f -> posOk P a f.
Proof. intros P a b f [x ->] [H1 H2]. split; auto. apply Forall_app in H1; tauto. Qed.

Lemma posOk_cur : forall X p ts f (P : position -> Prop), Toks X p ts f -> posOk P ts f -> P (pos p).
Proof.
  intros X p ts f P H [H1 H2]. unfold pos. destruct ts as [|t ts].
  - destruct (toks_nil _ _ _ H) as (t & -> & _ & -> & _). apply H2. discriminate.
  - rewrite (toks_cur _ _ _ _ _ H). now inversion H1.
Qed.

(** Positions in a deferred check. *)
Definition taskOk (P : position -> Prop) (t : task) : Prop :=
  match t with
  | TExists _ p => P p
  | TIdentBound _ i _ => P (iPos i)
  | TIntBound _ s _ | TFloatBound _ s _ => P s
  end.

(** The outcome of a parse function: [D u nx n tk] relates the consumed tokens
    (from the current one on), the token after them, the tree and the checks. *)
Definition Post (X : Ext) (P : position -> Prop) (D : list tokInfo -> tokInfo -> node -> list task -> Prop)
    (p : parser) (ts : list tokInfo) (f : fin) (r : node * option diag * parser) : Prop :=
  let '(n, d, p') := r in
  exists ts' tk, Toks X p' ts' f /\ suf ts' ts /\
    env p' = env p /\ perrors p' = perrors p /\ tasks p' = tasks p ++ tk /\ Forall (taskOk P) tk /\
    match d with
    | Some x => P (dStart x)
    | None => exists t u rest, ts = (t :: u) ++ rest /\ ts' = lastOf u t :: rest /\ D (t :: u) (pk p') n tk
    end.

(** What is known of recursive calls. *)
Definition PE (X : Ext) (N : nat) (pe : entryFn) : Prop :=
  forall P p ts f, Toks X p ts f -> (length ts < N)%nat -> posOk P ts f ->
    wp (peCurr pe p) (Post X P (Entry X) p ts f).

Lemma post_err : forall X (P : position -> Prop) D p ts f n d p' ts' tk,
  Toks X p' ts' f -> suf ts' ts -> env p' = env p -> perrors p' = perrors p ->
  tasks p' = tasks p ++ tk -> Forall (taskOk P) tk -> P (dStart d) ->
  Post X P D p ts f (n, Some d, p').
Proof. intros. exists ts', tk. split_all; auto. Qed.

Lemma post_err0 : forall X (P : position -> Prop) D p ts f n d p', same p' p ->
  forall ts', Toks X p' ts' f -> suf ts' ts -> P (dStart d) -> Post X P D p ts f (n, Some d, p').
Proof. intros X P D p ts f n d p' [S1 [S2 S3]] ts' H1 H2 H3. eapply post_err with (tk := []); eauto. now rewrite app_nil_r. Qed.

Lemma post_ok : forall X P (D : list tokInfo -> tokInfo -> node -> list task -> Prop) p ts f n p' t u rest tk,
  Toks X p' (lastOf u t :: rest) f -> ts = (t :: u) ++ rest -> env p' = env p -> perrors p' = perrors p ->
  tasks p' = tasks p ++ tk -> Forall (taskOk P) tk -> D (t :: u) (pk p') n tk ->
  Post X P D p ts f (n, None, p').
Proof.
  intros. exists (lastOf u t :: rest), tk. subst. split_all; auto; [apply suf_last|].
  exists t, u, rest. auto.
Qed.

Ltac unsame := repeat match goal with H : same _ _ |- _ => destruct H as (? & ? & ?) end.
Ltac wnext HT p' T' S' :=
  apply wp_bind; eapply wp_pnext; [exact HT|]; intros p' T' S'; cbn [tl] in T'.

(** A recursive call right after one [next], for a parse function that started at
    [p] on the token [t0]: what it leaves. *)
Lemma sub_entry : forall X N pe (P : position -> Prop) p0 ts0 f, PE X N pe -> Toks X p0 ts0 f -> (length ts0 < N)%nat -> posOk P ts0 f ->
  forall (Q : node * option diag * parser -> Prop),
  (forall n d p' ts' tk, Toks X p' ts' f -> suf ts' ts0 -> env p' = env p0 -> perrors p' = perrors p0 ->
     tasks p' = tasks p0 ++ tk -> Forall (taskOk P) tk -> P (dStart d) -> Q (n, Some d, p')) ->
  (forall n p' t u rest tk, ts0 = (t :: u) ++ rest -> Toks X p' (lastOf u t :: rest) f ->
     env p' = env p0 -> perrors p' = perrors p0 -> tasks p' = tasks p0 ++ tk -> Forall (taskOk P) tk ->
     Entry X (t :: u) (pk p') n tk -> Q (n, None, p')) ->
  wp (peCurr pe p0) Q.
Proof.
  intros X N pe P p0 ts0 f HPE HT HL HP Q H1 H2. eapply wp_mono; [apply (HPE P p0 ts0 f); auto|].
  intros [[n d] p'] (ts' & tk & K1 & K2 & K3 & K4 & K5 & K6 & K7). destruct d as [d|].
  - eapply H1; eauto.
  - destruct K7 as (t & u & rest & -> & -> & HD). eapply H2; eauto.
Qed.

  Lemma beq_true : forall a b, beq a b = true -> a = b.
  Proof. intros a b H. now apply LexWords.beq_eq. Qed.
  Lemma beq_false : forall a b, beq a b = false -> a <> b.
  Proof. intros a b H E. apply LexWords.beq_eq in E. congruence. Qed.

  Lemma isLit_name : forall t w, In t [INT; UINT; NINT; FLOAT; FLOAT16; FLOAT32; FLOAT64] ->
    isLiteral t w = negb (beq w (tokenName t)).
  Proof. intros t w H. simpl in H. intuition (subst; reflexivity). Qed.

Lemma splitDot_ne : forall s, splitDot s <> [].
Proof. intros [|c s]; simpl; [discriminate|]. destruct (c =? 46); [discriminate|]. destruct (splitDot s); discriminate. Qed.

Lemma splitDot_one : forall s a, splitDot s = [a] <-> (s = a /\ ~ In 46 a).
Proof.
  induction s as [|c s IH]; intros a; simpl.
  - split; [intros H; inversion H; subst; auto|intros [<- _]; auto].
  - destruct (Z.eqb_spec c 46) as [->|NE].
    + split; [intros H; inversion H; subst; exfalso; eapply splitDot_ne; eauto|].
      intros [<- H]. exfalso. apply H; left; auto.
    + destruct (splitDot s) as [|h l] eqn:E; [exfalso; eapply splitDot_ne; eauto|]. split.
      * intros H. inversion H; subst. destruct (proj1 (IH h) eq_refl) as [-> HI]. split; auto. simpl; intuition congruence.
      * intros [<- HI]. simpl in HI. assert (Q : h :: l = [s]) by (apply IH; split; tauto). inversion Q; subst; auto.
Qed.

Lemma splitDot_two : forall s a b, splitDot s = [a; b] <-> (s = a ++ 46 :: b /\ ~ In 46 a /\ ~ In 46 b).
Proof.
  induction s as [|c s IH]; intros a b; simpl.
  - split; [discriminate|]. intros [H _]. destruct a; discriminate.
  - destruct (Z.eqb_spec c 46) as [->|NE].
    + split.
      * intros H. inversion H; subst. apply splitDot_one in H2 as [-> H2]. simpl. auto.
      * intros (H1 & H2 & H3). destruct a as [|x a]; [|inversion H1; subst; simpl in H2; tauto].
        inversion H1; subst. f_equal. apply splitDot_one; auto.
    + destruct (splitDot s) as [|h l] eqn:E; [exfalso; eapply splitDot_ne; eauto|]. split.
      * intros H. inversion H; subst. destruct (proj1 (IH h b) eq_refl) as (-> & H1 & H2).
        split; auto. split; auto. simpl; intuition congruence.
      * intros (H1 & H2 & H3). destruct a as [|x a]; simpl in H1; [congruence|]. inversion H1; subst.
        simpl in H2. assert (Q : h :: l = [a; b]) by (apply IH; tauto). inversion Q; subst; auto.
Qed.

Section Nuds.
  Context (X : Ext) (N : nat) (pe : entryFn) (HPE : PE X N pe).
  Context (P : position -> Prop) (p : parser) (t0 : tokInfo) (ts : list tokInfo) (f : fin).
  Context (HT : Toks X p (t0 :: ts) f) (HL : (length ts < N)%nat) (HP : posOk P (t0 :: ts) f).

  Let HC : cur p = t0 := toks_cur X p t0 ts f HT.
  Let HPts : posOk P ts f := posOk_suf P ts (t0 :: ts) f (suf_cons t0 ts ts (suf_refl ts)) HP.
  Let HP0 : P (tPos t0) := Forall_inv (proj1 HP).

  Ltac atomtac := repeat match goal with H : context [tTok t0] |- _ => revert H | H : context [tLit t0] |- _ => revert H end;
    generalize t0; let k := fresh "k" in let w := fresh "w" in intros [k ? w]; cbn [tTok tPos tLit]; intros; try subst k; try subst w;
    try (constructor; auto).

  (** One-token entries. *)
  Lemma atom_post : forall n, Atom X t0 (tTok (pk p)) n [] -> Post X P (Nud X) p (t0 :: ts) f (n, None, p).
  Proof.
    intros n HA. eapply post_ok with (t := t0) (u := []) (rest := ts) (tk := []); eauto; try reflexivity.
    - now rewrite app_nil_r.
    - constructor; auto.
  Qed.

  Lemma err_here : forall n d D, P (dStart d) -> Post X P D p (t0 :: ts) f (n, Some d, p).
  Proof. intros. eapply post_err0; eauto; [apply same_refl|apply suf_refl]. Qed.

  Lemma identifier_post : forall (E : tTok t0 = IDENT) (EC : peekTok p = COLON),
    wp (parseIdentifier p) (Post X P (Nud X) p (t0 :: ts) f).
  Proof.
    intros E EC. simpl. apply atom_post. unfold pos, currLit. rewrite HC. unfold peekTok in EC. rewrite EC.
    atomtac.
  Qed.

  Lemma named_post : forall (E : tTok t0 = IDENT) (EC : peekTok p <> COLON),
    wp (parseNamedIdentifier p) (Post X P (Nud X) p (t0 :: ts) f).
  Proof.
    intros E EC. unfold parseNamedIdentifier, pos, currLit. rewrite HC. unfold peekTok in EC.
    destruct (tLit t0) as [|c w] eqn:EL; [exact I|]. simpl wp.
    destruct (Z.eqb_spec c 36) as [->|NE].
    - apply atom_post. atomtac.
    - eapply post_ok with (t := t0) (u := []) (rest := ts) (tk := [TExists (c :: w) (tPos t0)]); eauto; try reflexivity.
      + now apply toks_addTask.
      + constructor. cbn [pk addTask]. atomtac.
  Qed.

  Lemma boolLit_post : forall (E : tTok t0 = TRUE \/ tTok t0 = FALSE),
    wp (parseBooleanLiteral p) (Post X P (Nud X) p (t0 :: ts) f).
  Proof.
    intros E. unfold parseBooleanLiteral, pos, currLit. rewrite HC. 
    destruct (beq (tLit t0) (str "true")) eqn:E1; [|destruct (beq (tLit t0) (str "false")) eqn:E2]; cbn [wp].
    - apply beq_true in E1. apply atom_post. atomtac.
    - apply beq_true in E2. clear E1. apply atom_post. atomtac.
    - apply err_here. exact HP0.
  Qed.

  Lemma float_post : forall (E : floatTok (tTok t0)),
    wp (parseFloatType X p) (Post X P (Nud X) p (t0 :: ts) f).
  Proof.
    intros E. unfold parseFloatType, parseFloatLiteral, curr, pos, currLit. rewrite HC.
    rewrite isLit_name by (unfold floatTok in E; simpl in *; tauto).
    destruct (beq (tLit t0) (tokenName (tTok t0))) eqn:EB; cbn [negb].
    - cbn [wp]. apply atom_post. apply beq_true in EB. atomtac.
    - destruct (xParseFloat X (tLit t0)) eqn:EF; cbn [wp].
      + apply atom_post. apply beq_false in EB. atomtac.
      + apply err_here. exact HP0.
  Qed.

  Lemma uint_post : forall (E : tTok t0 = UINT), wp (parseUintType p) (Post X P (Nud X) p (t0 :: ts) f).
  Proof.
    intros E. unfold parseUintType, parseUintLiteral, curr, pos, currLit. rewrite HC.
    rewrite E. rewrite isLit_name by (simpl; tauto). change (tokenName UINT) with (str "uint").
    destruct (beq (tLit t0) (str "uint")) eqn:EB; cbn [negb].
    - apply atom_post. apply beq_true in EB. atomtac.
    - destruct (parseUint (tLit t0)) eqn:EF; cbn [wp].
      + apply err_here. exact HP0.
      + apply atom_post. apply beq_false in EB. atomtac.
  Qed.

  Lemma int_post : forall (E : tTok t0 = INT), wp (parseIntegerType p) (Post X P (Nud X) p (t0 :: ts) f).
  Proof.
    intros E. unfold parseIntegerType, parseIntegerLiteral, curr, pos, currLit. rewrite HC.
    rewrite E. rewrite isLit_name by (simpl; tauto). change (tokenName INT) with (str "int").
    destruct (beq (tLit t0) (str "int")) eqn:EB; cbn [negb].
    - apply atom_post. apply beq_true in EB. atomtac.
    - destruct (parseInt (tLit t0)) eqn:EF; cbn [wp].
      + apply err_here. exact HP0.
      + apply atom_post. apply beq_false in EB. atomtac.
  Qed.

  (** Prefix operators: [next], then an entry. *)
  Lemma prefix_post : forall (g : node -> option diag -> parser -> pres),
    (forall n p' u tk, Entry X u (pk p') n tk -> u <> [] ->
       exists m, g n None p' = Ok (m, None, p') /\ Nud X (t0 :: u) (pk p') m tk) ->
    (forall n d p', exists m, g n (Some d) p' = Ok (m, Some d, p')) ->
    wp (p1 <- pnext X p;; '(n, d, p2) <- peCurr pe p1;; g n d p2) (Post X P (Nud X) p (t0 :: ts) f).
  Proof.
    intros g G1 G2. wnext HT p1 T1 S1. apply wp_bind. unsame.
    eapply sub_entry; eauto.
    - intros n d p' ts' tk K1 K2 K3 K4 K5 K6 K7. destruct (G2 n d p') as [m ->]. cbn [wp].
      eapply post_err with (tk := tk); eauto; try congruence. now apply suf_cons.
    - intros n p' t u rest tk -> K1 K2 K3 K4 K5 K6. destruct (G1 n p' _ tk K6) as (m & -> & HN); [discriminate|].
      cbn [wp]. eapply post_ok with (t := t0) (u := t :: u) (rest := rest) (tk := tk); eauto; try congruence.
      rewrite lastOf_cons. auto.
  Qed.

  Lemma optional_post : tTok t0 = OPTIONAL -> wp (parseOptional X pe p) (Post X P (Nud X) p (t0 :: ts) f).
  Proof.
    intros E. unfold parseOptional. apply prefix_post.
    - intros n p' u tk HE Hu. eexists. split; [reflexivity|]. unfold pos, curr. rewrite HC, E. constructor; auto.
    - intros. eexists; reflexivity.
  Qed.

  Lemma unwrap_post : tTok t0 = UNWRAP -> wp (parseUnwrap X pe p) (Post X P (Nud X) p (t0 :: ts) f).
  Proof.
    intros E. unfold parseUnwrap. apply prefix_post.
    - intros n p' u tk HE Hu. eexists. split; [reflexivity|]. unfold pos, curr. rewrite HC, E. constructor; auto.
    - intros. eexists; reflexivity.
  Qed.

  Lemma enum_post : tTok t0 = AMPERSAND -> wp (parseEnumeration X pe p) (Post X P (Nud X) p (t0 :: ts) f).
  Proof.
    intros E. unfold parseEnumeration. apply prefix_post.
    - intros n p' u tk HE Hu. eexists. split; [reflexivity|]. unfold pos, curr. rewrite HC, E. constructor; auto.
    - intros. eexists; reflexivity.
  Qed.

  (** The upper bound of an occurrence. *)
  Lemma occUpper_post : forall (Q : (option uintLit * parser) + (diag * parser) -> Prop),
    (forall d p', Toks X p' ts f -> same p' p -> P (dStart d) -> Q (inr (d, p'))) ->
    (forall up p', Toks X p' ts f -> same p' p -> (forall t u, ts = t :: u -> Upper t up) -> Q (inl (up, p'))) ->
    wp (occUpper X p) Q.
  Proof.
    intros Q Q1 Q2. unfold occUpper, peekTok, peekLit.
    assert (HU : forall up, Upper (pk p) up -> forall t u, ts = t :: u -> Upper t up).
    { intros up HU t u E. rewrite (toks_pk _ _ _ _ _ HT) in HU. rewrite E in HU. exact HU. }
    destruct (teq (tTok (pk p)) INT && isLiteral (tTok (pk p)) (tLit (pk p))) eqn:EC.
    - apply andb_true_iff in EC as [E1 E2]. apply teq_true in E1. rewrite E1 in E2.
      wnext HT p1 T1 S1. unfold parseUintType, parseUintLiteral.
      assert (EP : cur p1 = pk p).
      { rewrite (tk_cur _ _ _ _ T1), (tk_pk _ _ _ _ HT). destruct ts; reflexivity. }
      unfold curr, currLit, pos. rewrite EP, E1, E2.
      rewrite isLit_name in E2 by (simpl; tauto). change (tokenName INT) with (str "int") in E2.
      apply negb_true_iff, beq_false in E2.
      destruct (parseUint (tLit (pk p))) eqn:EU; simpl.
      + apply Q1; auto. cbn [dStart errorTokenExpected err]. replace (tPos (pk p)) with (pos p1) by (unfold pos; now rewrite EP). eapply posOk_cur; eauto.
      + apply Q2; auto. apply HU. destruct (pk p) as [tk ps w]; simpl in *. subst tk. constructor; auto.
    - wnext HT p1 T1 S1. simpl. apply Q2; auto. apply HU. constructor. intros [E1 E2].
      rewrite E1, teq_refl in EC. cbn [andb] in EC. rewrite isLit_name in EC by (simpl; tauto).
      change (tokenName INT) with (str "int") in EC. apply negb_false_iff, beq_true in EC. congruence.
  Qed.

  (** The common part of both occurrence forms, once the lower bound is known. *)
  Lemma occ_tail : forall (D : list tokInfo -> tokInfo -> node -> list task -> Prop) leftU,
    (forall t u nx n tk up, Upper t up -> Entry X (t :: u) nx n tk ->
       D (t0 :: t :: u) nx (NNMOccurrence (pos p) (curr p) (Some leftU) up n) tk) ->
    wp (up <- occUpper X p;;
        match up with
        | inr (d, p1) => Ok (NNMOccurrence (pos p) (curr p) None None NNil, Some d, p1)
        | inl (upper, p1) =>
          '(item, d, p2) <- peCurr pe p1;;
          match d with
          | Some _ =>
            Ok (NBadNode zeroPos (curr p2)
                  (NNMOccurrence (pos p) (curr p) (Some leftU) upper NNil) zeroPos, d, p2)
          | None => Ok (NNMOccurrence (pos p) (curr p) (Some leftU) upper item, None, p2)
          end
        end) (Post X P D p (t0 :: ts) f).
  Proof.
    intros D leftU HD. apply wp_bind. apply occUpper_post.
    - intros d p' T' S' HPd. cbn [wp]. eapply post_err0; eauto. apply suf_cons, suf_refl.
    - intros up p1 T1 S1 HU. unsame. apply wp_bind. eapply sub_entry; eauto.
      + intros n d p' ts' tk K1 K2 K3 K4 K5 K6 K7. cbn [wp]. eapply post_err with (tk := tk); eauto; try congruence. now apply suf_cons.
      + intros n p' t u rest tk -> K1 K2 K3 K4 K5 K6. cbn [wp].
        eapply post_ok with (t := t0) (u := t :: u) (rest := rest) (tk := tk); eauto; try congruence.
        rewrite lastOf_cons. auto. eapply HD; eauto. eapply HU; eauto. reflexivity.
  Qed.

  Lemma star_post : tTok t0 = ZERO_OR_MORE -> wp (parsePrefixOccurrence X pe 0 p) (Post X P (Nud X) p (t0 :: ts) f).
  Proof.
    intros E. unfold parsePrefixOccurrence, parseOccurrence. cbn [occLower rbind].
    apply occ_tail. intros t u nx n tk up HU HE. unfold pos, curr. rewrite HC, E. constructor; auto.
  Qed.

  Lemma plus_post : tTok t0 = ONE_OR_MORE -> wp (parsePrefixOccurrence X pe 1 p) (Post X P (Nud X) p (t0 :: ts) f).
  Proof.
    intros E. unfold parsePrefixOccurrence, parseOccurrence. cbn [occLower rbind].
    apply occ_tail. intros t u nx n tk up HU HE. unfold pos, curr. rewrite HC, E. constructor; auto.
  Qed.

  (** Tags. *)
  Lemma tagHead_post : forall (Q : (option uintLit * option uintLit * parser) + (diag * parser) -> Prop),
    (forall d p' ts', Toks X p' ts' f -> suf ts' (t0 :: ts) -> same p' p -> P (dStart d) -> Q (inr (d, p'))) ->
    (forall mj nm p' num rest, ts = num ++ rest -> Toks X p' (lastOf num t0 :: rest) f -> same p' p ->
        TagNum num (tTok (pk p')) mj nm -> Q (inl (mj, nm, p'))) ->
    wp (parseTagHead X p) Q.
  Proof.
    intros Q Q1 Q2. unfold parseTagHead.
    assert (HN : tTok (pk p) <> INT -> tTok (pk p) <> FLOAT -> wp (Ok (inl (None, None, p))) Q).
    { intros N1 N2. cbn [wp]. apply Q2 with (num := []) (rest := ts); auto; [apply same_refl|]. constructor; auto. }
    unfold peekTok.
    destruct (tTok (pk p)) eqn:EP; try (apply HN; congruence); clear HN.
    - destruct (toks_pk_cons _ _ _ _ _ HT) as [ts' E]; [unfold peekTok; congruence|].
      pose proof HT as HT'. rewrite E in HT'. wnext HT' p1 T1 S1.
      pose proof (toks_cur _ _ _ _ _ T1) as EC. unfold currLit. rewrite EC.
      destruct (parseUint (tLit (pk p))) eqn:EU; cbn [wp].
      + eapply Q1; eauto; [rewrite E; apply suf_cons, suf_refl|]. cbn [dStart err]. unfold pos. rewrite EC.
        pose proof HPts as [F _]. rewrite E in F. now inversion F.
      + eapply Q2 with (num := [pk p]) (rest := ts'); auto.
        destruct (pk p) as [k q w]; simpl in *; subst k. constructor. auto.
    - destruct (toks_pk_cons _ _ _ _ _ HT) as [ts' E]; [unfold peekTok; congruence|].
      pose proof HT as HT'. rewrite E in HT'. wnext HT' p1 T1 S1.
      pose proof (toks_cur _ _ _ _ _ T1) as EC.
      assert (HPc : P (pos p1)) by (unfold pos; rewrite EC; pose proof HPts as [F _]; rewrite E in F; now inversion F).
      assert (HS : suf (pk p :: ts') (t0 :: ts)) by (rewrite E; apply suf_cons, suf_refl).
      unfold parseFloatTag.
      destruct (splitDot (currLit p1)) as [|a [|b [|c l]]] eqn:ES;
        try (cbn [wp]; eapply Q1; eauto; fail).
      destruct (parseUint a) eqn:EA; [cbn [wp]; eapply Q1; eauto|].
      destruct (parseUint b) eqn:EB; [cbn [wp]; eapply Q1; eauto|].
      cbn [wp]. apply splitDot_two in ES as (ES & E1 & E2).
      eapply Q2 with (num := [pk p]) (rest := ts'); auto.
      unfold currLit in ES. unfold pos, curr. rewrite EC in *.
      destruct (pk p) as [k q w]; simpl in *; subst k w. constructor; auto.
  Qed.

  Lemma tag_post : tTok t0 = HASH -> wp (parseTag X pe p) (Post X P (Nud X) p (t0 :: ts) f).
  Proof.
    intros E. unfold parseTag. apply wp_bind. apply tagHead_post.
    - intros d p' ts' T' HS S' HD. cbn [wp]. eapply post_err0; eauto.
    - intros mj nm p1 num rest ER T1 S1 HG. unsame. unfold peekTok.
      destruct (teq (tTok (pk p1)) LPAREN) eqn:EL.
      + apply teq_true in EL.
        destruct (toks_pk_cons _ _ _ _ _ T1) as [rest' E2]; [unfold peekTok; congruence|].
        remember (pk p1) as lp eqn:Elp. rewrite E2 in T1.
        wnext T1 p2 T2 S2. wnext T2 p3 T3 S3. unsame. apply wp_bind.
        assert (HS : suf rest' ts) by (rewrite ER, E2; exists (num ++ [lp]); now rewrite <- app_assoc).
        eapply (sub_entry X N pe P p3 rest' f); eauto.
        * apply suf_len in HS. lia.
        * eapply posOk_suf; eauto.
        * intros n d p' ts' tk K1 K2 K3 K4 K5 K6 K7. cbn [wp]. eapply post_err with (tk := tk); eauto; try congruence.
          apply suf_cons. eapply suf_trans; eauto.
        * intros n p' t u rest2 tk E3 K1 K2 K3 K4 K5 K6. apply wp_bind. unfold expectPeek, peekTok.
          destruct (teq (tTok (pk p')) RPAREN) eqn:EP.
          -- apply teq_true in EP. destruct (toks_pk_cons _ _ _ _ _ K1) as [rest3 E4]; [unfold peekTok; congruence|].
             rewrite E4 in K1. eapply wp_pnext; [exact K1|]. intros p5 T5 S5. cbn [tl] in T5. unsame. cbn [wp].
             eapply post_ok with (t := t0) (u := num ++ lp :: (t :: u) ++ [pk p']) (rest := rest3) (tk := tk); eauto; try congruence.
             ++ rewrite lastOf_app, lastOf_snoc. auto.
             ++ rewrite ER, E2, E3, E4. simpl. rewrite <- !app_assoc. simpl. rewrite <- !app_assoc. reflexivity.
             ++ unfold pos, curr. rewrite HC, E. eapply N_tagged; eauto. now rewrite <- EL.
          -- apply teq_false in EP. cbn [wp].
             eapply post_ok with (t := t0) (u := num ++ lp :: (t :: u) ++ []) (rest := rest2) (tk := tk); eauto; try congruence.
             ++ rewrite lastOf_app, app_nil_r, lastOf_cons. auto.
             ++ rewrite ER, E2, E3. simpl. rewrite app_nil_r, <- !app_assoc. reflexivity.
             ++ unfold pos, curr. rewrite HC, E. eapply N_tagged with (nx' := pk p'); eauto. now rewrite <- EL.
      + apply teq_false in EL. cbn [wp]. 
        eapply post_ok with (t := t0) (u := num) (rest := rest) (tk := []); eauto; try congruence.
        * rewrite ER; reflexivity.
        * rewrite app_nil_r; congruence.
        * unfold pos, curr. rewrite HC, E. constructor; auto.
  Qed.

End Nuds.

(** The loops inside brackets. *)
Lemma bracket_post : forall X N pe stop keep (P : position -> Prop) f, PE X N pe -> stop <> EOF ->
  forall fuel acc p ts, Toks X p ts f -> (length ts < N)%nat -> (length ts < fuel)%nat -> posOk P ts f ->
  wp (bracketLoop X pe stop keep fuel acc p) (fun r => let '(l, d, p') := r in
    exists ts' tk, Toks X p' ts' f /\ suf ts' ts /\
      env p' = env p /\ perrors p' = perrors p /\ tasks p' = tasks p ++ tk /\ Forall (taskOk P) tk /\
      match d with
      | Some x => P (dStart x)
      | None => exists es c rest ns, ts = es ++ c :: rest /\ ts' = c :: rest /\ tTok c = stop /\
                  Entries X es c ns tk /\ l = acc ++ filter keep ns
      end).
Proof.
  intros X N pe stop keep P f HPE HStop. induction fuel as [|fuel IH]; intros acc p ts HT HN HL HP; [lia|].
  simpl bracketLoop. destruct (teq (curr p) stop) eqn:ES.
  - apply teq_true in ES. destruct (toks_cons _ _ _ _ HT) as [ts' E]; [congruence|]. cbn [wp].
    exists ts, []. split; [exact HT|]. split; [apply suf_refl|]. split; auto. split; auto.
    split; [now rewrite app_nil_r|]. split; auto.
    exists [], (cur p), ts', []. split_all; auto; [constructor|now rewrite app_nil_r].
  - apply teq_false in ES. apply wp_bind. eapply (sub_entry X N pe P p ts f); eauto.
    + intros n d p' ts' tk K1 K2 K3 K4 K5 K6 K7. cbn [wp]. exists ts', tk. split_all; auto.
    + intros n p1 t u rest tk E K1 K2 K3 K4 K5 K6. wnext K1 p2 T2 S2. unsame.
      assert (HS : suf rest ts) by (rewrite E; apply suf_app).
      assert (HLr : (length rest < length ts)%nat) by (rewrite E, app_length; simpl; lia).
      eapply wp_mono; [apply (IH (if keep n then acc ++ [n] else acc) p2 rest T2); try lia|].
      { eapply posOk_suf; eauto. }
      intros [[l d] p3] (ts' & tk2 & J1 & J2 & J3 & J4 & J5 & J6 & J7).
      exists ts', (tk ++ tk2). split; auto. split; [eapply suf_trans; eauto|]. split; [congruence|]. split; [congruence|].
      split; [rewrite J5, H1, K4, app_assoc; auto|]. split; [apply Forall_app; auto|].
      destruct d as [d|]; auto. destruct J7 as (es & c & rest2 & ns & Q1 & Q2 & Q3 & Q4 & Q5).
      exists ((t :: u) ++ es), c, rest2, (n :: ns). split; [rewrite E, Q1, <- app_assoc; auto|]. split; auto. split; auto.
      split.
      * constructor; auto. rewrite (toks_pk _ _ _ _ _ K1) in K6. rewrite Q1 in K6. unfold nextOf.
        destruct es; exact K6.
      * rewrite Q5. simpl filter. destruct (keep n); auto. now rewrite <- app_assoc.
Qed.

Section Brackets.
  Context (X : Ext) (N fuel : nat) (pe : entryFn) (HPE : PE X N pe).
  Context (P : position -> Prop) (p : parser) (t0 : tokInfo) (ts : list tokInfo) (f : fin).
  Context (HT : Toks X p (t0 :: ts) f) (HL : (length ts < N)%nat) (HF : (length ts < fuel)%nat)
          (HP : posOk P (t0 :: ts) f).

  Lemma brackets : forall stop keep (mk : list node -> node), stop <> EOF ->
    (forall es c ns tk nx, tTok c = stop -> Entries X es c ns tk ->
       Nud X (t0 :: es ++ [c]) nx (mk (filter keep ns)) tk) ->
    wp (p1 <- pnext X p;; '(l, d, p2) <- bracketLoop X pe stop keep fuel [] p1;; Ok (mk l, d, p2))
       (Post X P (Nud X) p (t0 :: ts) f).
  Proof.
    intros stop keep mk HS HM. wnext HT p1 T1 S1. apply wp_bind. unsame.
    eapply wp_mono; [eapply (bracket_post X N pe stop keep P f HPE HS fuel [] p1 ts); auto|].
    { eapply posOk_suf; eauto. apply suf_cons, suf_refl. }
    intros [[l d] p2] (ts' & tk & J1 & J2 & J3 & J4 & J5 & J6 & J7). cbn [wp]. destruct d as [d|].
    - eapply post_err with (tk := tk); eauto; try congruence. now apply suf_cons.
    - destruct J7 as (es & c & rest & ns & Q1 & -> & Q3 & Q4 & ->).
      eapply post_ok with (t := t0) (u := es ++ [c]) (rest := rest) (tk := tk); auto; try congruence.
      + now rewrite lastOf_snoc.
      + rewrite Q1. simpl. now rewrite <- app_assoc.
      + simpl app. apply HM; auto.
  Qed.

  Lemma group_post : tTok t0 = LPAREN -> wp (parseGroup X pe fuel p) (Post X P (Nud X) p (t0 :: ts) f).
  Proof.
    intros E. unfold parseGroup. apply brackets; [discriminate|]. intros es c ns tk nx Hc HE.
    unfold pos. rewrite (toks_cur _ _ _ _ _ HT). constructor; auto.
  Qed.

  Lemma array_post : tTok t0 = LBRACK -> wp (parseArray X pe fuel p) (Post X P (Nud X) p (t0 :: ts) f).
  Proof.
    intros E. unfold parseArray. apply brackets; [discriminate|]. intros es c ns tk nx Hc HE.
    unfold pos. rewrite (toks_cur _ _ _ _ _ HT). constructor; auto.
  Qed.

  Lemma filter_notNil : forall ns, Forall real ns -> filter notNil ns = ns.
  Proof.
    induction ns as [|n ns IH]; intros H; simpl; auto. inversion H; subst. rewrite IH; auto.
    destruct H2 as [H2 _]. destruct n; simpl; congruence.
  Qed.

  Lemma map_post : tTok t0 = LBRACE -> wp (parseMap X pe fuel p) (Post X P (Nud X) p (t0 :: ts) f).
  Proof.
    intros E. unfold parseMap. apply brackets; [discriminate|]. intros es c ns tk nx Hc HE.
    unfold pos. rewrite (toks_cur _ _ _ _ _ HT). rewrite filter_notNil.
    - constructor; auto.
    - eapply (proj2 (proj2 (proj2 (grammar_shape X)))); eauto.
  Qed.
End Brackets.

Lemma runNud_post : forall X N fuel pe (P : position -> Prop) p t0 ts f k, PE X N pe -> Toks X p (t0 :: ts) f ->
  (length ts < N)%nat -> (length ts < fuel)%nat -> posOk P (t0 :: ts) f ->
  tTok t0 <> COMMENT -> chooseNud p = Some k ->
  wp (runNud X pe fuel k p) (Post X P (Nud X) p (t0 :: ts) f).
Proof.
  intros X N fuel pe P p t0 ts f k HPE HT HN HF HP NC HK. unfold chooseNud, curr in HK.
  pose proof (toks_cur _ _ _ _ _ HT) as HC. rewrite HC in HK.
  destruct (teq (tTok t0) IDENT && teq (peekTok p) COLON) eqn:E.
  - apply andb_true_iff in E as [E1 E2]. apply teq_true in E1. apply teq_true in E2. inversion HK; subst k.
    simpl runNud. eapply identifier_post; eauto.
  - assert (EC : tTok t0 = IDENT -> peekTok p <> COLON).
    { intros Ei Ec. rewrite Ei, Ec in E. discriminate. }
    unfold nudFor in HK. 
    destruct (tTok t0) eqn:Et; try discriminate; inversion HK; subst k; cbn [runNud];
      try congruence;
      try (cbn [wp]; eapply atom_post; eauto; cbv [pos curr currLit]; rewrite HC; destruct t0 as [k0 q0 w0]; cbn [tTok tPos tLit] in *; subst; constructor; auto; fail).
    + eapply named_post; eauto.
    + eapply int_post; eauto.
    + eapply uint_post; eauto.
    + eapply float_post; eauto. rewrite Et; unfold floatTok; simpl; auto.
    + eapply float_post; eauto. rewrite Et; unfold floatTok; simpl; auto.
    + eapply float_post; eauto. rewrite Et; unfold floatTok; simpl; auto.
    + eapply float_post; eauto. rewrite Et; unfold floatTok; simpl; auto.
    + eapply boolLit_post; eauto.
    + eapply boolLit_post; eauto.
    + eapply group_post; eauto.
    + eapply array_post; eauto.
    + eapply map_post; eauto.
    + eapply optional_post; eauto.
    + eapply enum_post; eauto.
    + eapply tag_post; eauto.
    + eapply star_post; eauto.
    + eapply plus_post; eauto.
    + eapply unwrap_post; eauto.
Qed.

(** * Infix operators *)

Lemma infix_infixTok : forall op l t v m tk, Infix op l t v m tk -> infixTok (tTok op) = true.
Proof.
  intros op l t v m tk H. inversion H; subst; try (match goal with H : tTok _ = _ \/ _ |- _ => destruct H as [-> | ->] end; reflexivity);
    try (match goal with H : tTok _ = _ |- _ => rewrite H end; reflexivity).
  simpl in *. intuition (match goal with H : _ = tTok _ |- _ => rewrite <- H end; reflexivity).
Qed.

(** After an entry that is over, nothing more follows. *)
Lemma Tail_over : forall X lst l tl nx m tk, Tail X lst l tl nx m tk ->
  over (tTok lst) (tTok (nextOf tl nx)) -> tl = [] /\ m = l /\ tk = [].
Proof.
  intros X lst l tl nx m tk H HO. destruct HO as [HO|HO].
  - inversion H; subst; auto; congruence.
  - inversion H; subst; auto; unfold nextOf in HO; simpl in HO; exfalso.
    + match goal with H : tTok _ = COMMA |- _ => rewrite H in HO; discriminate end.
    + match goal with H : Infix _ _ _ _ _ _ |- _ => apply infix_infixTok in H; congruence end.
    + match goal with H : tTok _ = _ \/ _ |- _ => destruct H as [E | E]; rewrite E in HO; discriminate end.
    + match goal with H : tTok _ = _ \/ _ |- _ => destruct H as [E | E]; rewrite E in HO; discriminate end.
    + match goal with H : tTok _ = _ \/ _ |- _ => destruct H as [E | E]; rewrite E in HO; discriminate end.
Qed.

(** What an operator with its operand does to the tree [l] so far. *)
Definition Led (X : Ext) (P : position -> Prop) (l : node) (u : list tokInfo) (nx : tokInfo) (m : node) (tk : list task) : Prop :=
  real m /\ startOk P m /\
  forall op r, u = op :: r ->
  forall lst tl nx' m' tk', tTok lst <> COMMA -> nextOf tl nx' = nx ->
    Tail X (lastOf r op) m tl nx' m' tk' -> Tail X lst l (u ++ tl) nx' m' (tk ++ tk').

Lemma infix_start : forall (P : position -> Prop) op l t v m tk, Infix op l t v m tk -> P (tPos op) ->
  startOk P l -> startOk P m.
Proof.
  intros P op l t v m tk H HP HL. inversion H; subst; intros s Hs; simpl in Hs; auto; try discriminate.
  all: try (match goal with H : Lower _ _ |- _ => inversion H; subst end; inversion Hs; subst; apply HL; reflexivity).
Qed.

Lemma tstr_inv : forall l, typeOf l = Some KTstrType -> real l -> exists ps k, l = NTstrType ps k.
Proof.
  intros l E [_ HR]. destruct l; simpl in E; inversion E; subst; eauto. exfalso; eapply HR; eauto.
Qed.

(** [Start()] and [End()] return or panic. *)
Lemma start_wp : forall n, wp (node_start n) (fun _ => True).
Proof. induction n; simpl; auto; repeat match goal with |- context [match ?x with _ => _ end] => destruct x; simpl; auto end. Qed.

Lemma end_wp : forall n, wp (node_end n) (fun _ => True).
Proof.
  fix IH 1.
  assert (HL : forall l, (fix all (l : list node) : Prop := match l with [] => True | x :: r => wp (node_end x) (fun _ => True) /\ all r end) l ->
    wp ((fix le (l : list node) : res position :=
           match l with [] => Ok noPos | [x] => node_end x | _ :: r => le r end) l) (fun _ => True)).
  { induction l as [|x l IHl]; [simpl; auto|]. intros [H1 H2]. destruct l; auto. }
  destruct n; try exact I;
    try (match goal with |- wp (node_end ?n) _ => let m := eval cbn [node_end] in (node_end n) in
           match m with node_end ?k => change (wp (node_end k) (fun _ => True)); apply (IH k) end end).
  - match goal with |- context [NCommentGroup ?x] => destruct x; exact I end.
  - cbn [node_end]. pose proof (IH n) as W. destruct (node_end n); simpl in *; auto.
  - match goal with |- context [NNMOccurrence _ _ _ ?x _] => destruct x; exact I end.
  - apply HL. induction entries; simpl; auto.
  - apply HL. induction rules; simpl; auto.
  - apply HL. induction rules; simpl; auto.
  - apply HL. induction rules; simpl; auto.
Qed.

Lemma start_ok : forall n (Q : position -> Prop), (forall s, node_start n = Ok s -> Q s) -> wp (node_start n) Q.
Proof. intros n Q H. pose proof (start_wp n) as W. destruct (node_start n); simpl in *; auto. Qed.

Lemma occLower_wp : forall (P : position -> Prop) l p, startOk P l ->
  wp (occLower l p) (fun r => match r with inl u => Lower l u | inr d => P (dStart d) end).
Proof.
  intros P l p HS.
  assert (HD : wp (s <- node_start l;; e <- node_end l;; Ok (inr (err (MOccType (curr p)) s e)))
     (fun r : uintLit + diag => match r with inl u => Lower l u | inr d => P (dStart d) end)).
  { apply wp_bind; apply start_ok; intros s Hs; apply wp_bind; eapply wp_mono; [apply end_wp|]; intros e _.
    cbn [wp dStart err]; apply HS; exact Hs. }
  destruct l; try exact HD.
  - cbn [wp occLower]. constructor.
  - cbn [occLower]. destruct (v <? 0) eqn:EZ.
    + cbn [node_start node_end rbind wp dStart err]. apply HS. reflexivity.
    + cbn [wp]. constructor. lia.
Qed.

Lemma key_of : forall (P : position -> Prop) l op i, startOk P l -> P (tPos op) ->
  match l with NIdentifier i => Some i | NIntegerLiteral _ _ v => Some (mkIdent (tPos op) (fmtD v)) | _ => None end = Some i ->
  Key op l i /\ P (iPos i).
Proof.
  intros P l op i HS HP Hi. destruct l; inversion Hi; subst; split; try constructor; auto.
Qed.

Section Leds.
  Context (X : Ext) (N : nat) (pe : entryFn) (HPE : PE X N pe).
  Context (P : position -> Prop) (p : parser) (op : tokInfo) (ts : list tokInfo) (f : fin) (l : node).
  Context (HT : Toks X p (op :: ts) f) (HL : (length ts < N)%nat) (HP : posOk P (op :: ts) f).
  Context (HR : real l) (HSt : startOk P l).

  Let HC : cur p = op := toks_cur X p op ts f HT.
  Let HPts : posOk P ts f := posOk_suf P ts (op :: ts) f (suf_cons op ts ts (suf_refl ts)) HP.
  Let HP0 : P (tPos op) := Forall_inv (proj1 HP).

  (** A finished infix application. *)
  Lemma infix_led : forall t u nx v m tk tk', Entry X (t :: u) nx v tk -> Infix op l t v m tk' ->
    Led X P l (op :: t :: u) nx m (tk ++ tk').
  Proof.
    intros t u nx v m tk tk' HE HI.
    assert (HT1 : Tail X (mkTok ILLEGAL zeroPos []) l (op :: t :: u) nx m (tk ++ tk')) by (apply T_infix with (v := v); auto; discriminate).
    split; [eapply Tail_real; eauto|]. split; [eapply infix_start; eauto|].
    intros op0 r E lst tl nx' m' tk2 H1 H2 H3. inversion E; subst op0 r.
    destruct (Tail_over _ _ _ _ _ _ _ H3) as (-> & -> & ->).
    - rewrite H2, lastOf_cons. eapply Entry_over; eauto.
    - simpl app. rewrite !app_nil_r. unfold nextOf in H2; simpl in H2. subst nx'. eapply T_infix; eauto.
  Qed.

  (** What may happen after the operand. *)
  Definition Fin (v : node) (p2 : parser) (t : tokInfo) (r : node * option diag * parser) : Prop :=
    let '(m, d, p3) := r in
    exists tk', lx p3 = lx p2 /\ cur p3 = cur p2 /\ pk p3 = pk p2 /\ env p3 = env p2 /\ perrors p3 = perrors p2 /\
      tasks p3 = tasks p2 ++ tk' /\ Forall (taskOk P) tk' /\
      match d with Some x => P (dStart x) | None => Infix op l t v m tk' end.

  Lemma toks_copy : forall p2 p3 ts', Toks X p2 ts' f -> lx p3 = lx p2 -> cur p3 = cur p2 -> pk p3 = pk p2 -> Toks X p3 ts' f.
  Proof. intros p2 p3 ts' [H1 H2 H3 H4 H5 H6] E1 E2 E3. split; auto; congruence. Qed.

  Lemma led_post : forall (g : node -> option diag -> parser -> pres),
    (forall t u v p2 tk, ts = t :: u -> startOk P v -> Entry X (t :: u) (pk p2) v tk -> True) ->
    (forall t u rest v p2 tk, ts = (t :: u) ++ rest -> startOk P v -> real v -> Entry X (t :: u) (pk p2) v tk ->
        wp (g v None p2) (Fin v p2 t)) ->
    (forall v d p2, wp (g v (Some d) p2) (fun r => exists m, r = (m, Some d, p2))) ->
    wp (p1 <- pnext X p;; '(v, d, p2) <- peCurr pe p1;; g v d p2) (Post X P (Led X P l) p (op :: ts) f).
  Proof.
    intros g _ G1 G2. wnext HT p1 T1 S1. apply wp_bind. unsame. eapply sub_entry; eauto.
    - intros v d p' ts' tk K1 K2 K3 K4 K5 K6 K7. eapply wp_mono; [apply G2|]. intros r [m ->].
      eapply post_err with (tk := tk); eauto; try congruence. now apply suf_cons.
    - intros v p' t u rest tk E K1 K2 K3 K4 K5 K6.
      assert (HV : startOk P v).
      { eapply (proj1 (grammar_start X P)); eauto. destruct HPts as [F _]. rewrite E in F. apply Forall_app in F; tauto. }
      eapply wp_mono; [eapply G1; eauto; eapply Entry_real; eauto|].
      intros [[m d] p3] (tk' & J1 & J2 & J3 & J4 & J5 & J6 & J7 & J8).
      pose proof (toks_copy p' p3 _ K1 J1 J2 J3) as T3. destruct d as [d|].
      + eapply post_err with (tk := tk ++ tk'); eauto; try congruence.
        * apply suf_cons. rewrite E. apply suf_last.
        * rewrite J6, K4, app_assoc. congruence.
        * apply Forall_app; auto.
      + eapply post_ok with (t := op) (u := t :: u) (rest := rest) (tk := tk ++ tk'); eauto; try congruence.
        * rewrite lastOf_cons; auto.
        * rewrite E; reflexivity.
        * rewrite J6, K4, app_assoc. congruence.
        * apply Forall_app; auto.
        * rewrite J3. apply infix_led with (v := v); auto.
  Qed.

  Lemma fin_plain : forall v m p2 t, Infix op l t v m [] -> Fin v p2 t (m, None, p2).
  Proof. intros v m p2 t H. exists []. rewrite app_nil_r. split_all; auto. Qed.

  Lemma fin_task : forall v m p2 t tk, taskOk P tk -> Infix op l t v m [tk] -> Fin v p2 t (m, None, addTask p2 tk).
  Proof. intros v m p2 t tk H1 H. exists [tk]. split_all; auto. Qed.

  Lemma fin_err : forall v m p2 t d, P (dStart d) -> Fin v p2 t (m, Some d, p2).
  Proof. intros v m p2 t d H. exists []. rewrite app_nil_r. split_all; auto. Qed.

  Lemma errl : forall n d, P (dStart d) -> Post X P (Led X P l) p (op :: ts) f (n, Some d, p).
  Proof. intros. eapply post_err0; eauto; [apply same_refl|apply suf_refl]. Qed.

  Lemma choice_post : tTok op = TYPE_CHOICE \/ tTok op = GROUP_CHOICE ->
    wp (parseTypeChoice X pe l p) (Post X P (Led X P l) p (op :: ts) f).
  Proof.
    intros E. unfold parseTypeChoice. apply led_post; auto.
    - intros t u rest v p2 tk _ _ _ _. cbn [wp]. apply fin_plain. cbv [pos curr]. rewrite HC. constructor; auto.
    - intros v d p2. cbn [wp]. eauto.
  Qed.

  Lemma size_post : tTok op = SIZE -> wp (parseSizeOperator X pe l p) (Post X P (Led X P l) p (op :: ts) f).
  Proof.
    intros E. unfold parseSizeOperator.
    assert (HE : forall n d, P (dStart d) -> wp (Ok (n, Some d, p)) (Post X P (Led X P l) p (op :: ts) f))
      by (intros; cbn [wp]; apply errl; auto).
    assert (HO : In (typeOf l) [Some KBstrType; Some KUintType; Some KTstrType] ->
      wp (p1 <- pnext X p;; '(rhs, d, p2) <- peCurr pe p1;;
          match d with
          | Some _ => Ok (NSizeOp (pos p) (curr p) NNil l, d, p2)
          | None => Ok (NSizeOp (pos p) (curr p) rhs l, None, p2)
          end) (Post X P (Led X P l) p (op :: ts) f)).
    { intros HI. apply led_post; auto.
      - intros t u rest v p2 tk _ _ _ _. cbn [wp]. apply fin_plain. cbv [pos curr]. rewrite HC, E. constructor; auto.
      - intros v d p2. cbn [wp]. eauto. }
    destruct (typeOf l) as [[]|]; try (apply HE; cbv [pos]; rewrite HC; exact HP0); apply HO; simpl; auto.
  Qed.

  Lemma compare_post : In (tTok op) [LT; LE; GT; GE; EQ; NE] ->
    wp (parseComparatorOp X pe l p) (Post X P (Led X P l) p (op :: ts) f).
  Proof.
    intros E. unfold parseComparatorOp.
    assert (HE : forall n d, P (dStart d) -> wp (Ok (n, Some d, p)) (Post X P (Led X P l) p (op :: ts) f))
      by (intros; cbn [wp]; apply errl; auto).
    assert (HO : In (typeOf l) [Some KUintType; Some KIntegerType; Some KFloatType] ->
      wp (p1 <- pnext X p;; '(rhs, d, p2) <- peCurr pe p1;;
          match d with
          | Some _ => Ok (NBadNode zeroPos (curr p2) (NTypedNil KIntegerType) zeroPos, d, p2)
          | None => Ok (NComparator (pos p) (curr p) (currLit p) (NTypedNil KIntegerType) rhs, None, p2)
          end) (Post X P (Led X P l) p (op :: ts) f)).
    { intros HI. apply led_post; auto.
      - intros t u rest v p2 tk _ _ _ _. cbn [wp]. apply fin_plain. cbv [pos curr currLit]. rewrite HC. constructor; auto.
      - intros v d p2. cbn [wp]. eauto. }
    destruct (typeOf l) as [[]|]; try (apply HE; cbv [pos]; rewrite HC; exact HP0); apply HO; simpl; auto.
  Qed.

  Lemma regexp_post : tTok op = REGEXP -> wp (parseRegexp X pe l p) (Post X P (Led X P l) p (op :: ts) f).
  Proof.
    intros E. unfold parseRegexp. destruct (typeOf l) as [[]|] eqn:ET; try exact I.
    destruct (tstr_inv l ET HR) as (ps & k & EL).
    destruct (negb (teq (peekTok p) TEXT_LITERAL) && negb (teq (peekTok p) IDENT)) eqn:EQ.
    - cbn [wp]. apply errl. cbv [pos]. cbn [dStart errorTokenExpected err]. rewrite HC. exact HP0.
    - assert (HX : tTok (pk p) = TEXT_LITERAL \/ tTok (pk p) = IDENT).
      { unfold peekTok in EQ. rewrite andb_false_iff, !negb_false_iff, !teq_true in EQ. exact EQ. }
      apply led_post; auto.
      + intros t u rest v p2 tk E2 _ _ _. cbn [wp]. apply fin_plain. rewrite EL. cbv [pos curr]. rewrite HC, E. constructor; auto.
        rewrite (toks_pk _ _ _ _ _ HT), E2 in HX. exact HX.
      + intros v d p2. cbn [wp]. eauto.
  Qed.

  Lemma bits_post : tTok op = BITS -> wp (parseBits X pe l p) (Post X P (Led X P l) p (op :: ts) f).
  Proof.
    intros E. unfold parseBits. apply led_post; auto.
    - intros t u rest v p2 tk _ _ _ _. cbn [wp]. apply fin_plain. cbv [pos curr]. rewrite HC, E. constructor; auto.
    - intros v d p2. apply wp_bind. unfold wrapBadNode. apply wp_bind. eapply wp_mono; [apply start_wp|]. intros st _.
      apply wp_bind. eapply wp_mono; [apply end_wp|]. intros e _. cbn [wp]. eauto.
  Qed.

  Lemma occur_post : tTok op = ZERO_OR_MORE \/ tTok op = ONE_OR_MORE ->
    wp (parseOccurrence X pe l p) (Post X P (Led X P l) p (op :: ts) f).
  Proof.
    intros E. unfold parseOccurrence. apply wp_bind.
    assert (HLo : wp (occLower l p) (fun r => match r with inl u => Lower l u | inr d => P (dStart d) end)).
    { apply occLower_wp; auto. }
    eapply wp_mono; [exact HLo|]. intros [u|d] HU.
    - eapply (occ_tail X N pe HPE P p op ts f HT HL HP). intros t r nx n tk up HUp HE.
      cbv [pos curr]. rewrite HC. rewrite <- (app_nil_r tk). apply infix_led with (v := n); auto. constructor; auto.
    - cbn [wp]. apply errl. exact HU.
  Qed.

  Lemma isBound_no : isBound l = false -> tTok op = INCLUSIVE_BOUND \/ tTok op = EXCLUSIVE_BOUND ->
    Post X P (Led X P l) p (op :: ts) f (NRange zeroPos ILLEGAL NNil NNil, None, p).
  Proof.
    intros HB E. eapply post_ok with (t := op) (u := []) (rest := ts) (tk := []); eauto.
    - now rewrite app_nil_r.
    - split; [split; congruence|]. split; [intros s Hs; discriminate|].
      intros op0 r E0 lst tl nx' m' tk' H1 H2 H3. inversion E0; subst op0 r. simpl. apply T_noBound; auto.
  Qed.

  Lemma litBound_post : forall isInt, match l with NIntegerLiteral _ _ _ => isInt = true | NFloatLiteral _ _ _ => isInt = false | _ => False end ->
    tTok op = INCLUSIVE_BOUND \/ tTok op = EXCLUSIVE_BOUND ->
    wp (parseLitBound X pe isInt l p) (Post X P (Led X P l) p (op :: ts) f).
  Proof.
    intros isInt HI E. unfold parseLitBound. apply led_post; auto.
    - intros t u rest v p2 tk _ HV HRv _. cbv [pos curr]. rewrite HC.
      assert (HN : isNumber l = true) by (destruct l; try contradiction; auto).
      destruct v; try (cbn [wp]; apply fin_plain; apply I_boundOther; auto; fail).
      + cbn [node_start node_end rbind]. cbn [wp]. destruct isInt.
        * apply fin_task; [exact (HV _ eq_refl)|]. destruct l; try contradiction; try discriminate. constructor; auto.
        * apply fin_task; [exact (HV _ eq_refl)|]. destruct l; try contradiction; try discriminate. constructor; auto.
      + destruct isInt.
        * cbn [node_start node_end rbind wp]. apply fin_err. exact (HV _ eq_refl).
        * cbn [wp]. apply fin_plain. destruct l; try contradiction; try discriminate. constructor; auto.
      + destruct isInt.
        * cbn [wp]. apply fin_plain. destruct l; try contradiction; try discriminate. constructor; auto.
        * cbn [node_start node_end rbind wp]. apply fin_err. exact (HV _ eq_refl).
    - intros v d p2. cbn [wp]. eauto.
  Qed.

  Lemma bound_post : tTok op = INCLUSIVE_BOUND \/ tTok op = EXCLUSIVE_BOUND ->
    wp (parseBound X pe l p) (Post X P (Led X P l) p (op :: ts) f).
  Proof.
    intros E. unfold parseBound.
    assert (HI : forall i, l = NIdentifier i -> wp (parseIdentBound X pe i p) (Post X P (Led X P l) p (op :: ts) f)).
    { intros i EL. unfold parseIdentBound. apply led_post; auto.
      - intros t u rest v p2 tk _ _ _ _. cbn [wp]. cbv [pos curr]. rewrite HC. apply fin_task.
        + apply HSt. rewrite EL. reflexivity.
        + rewrite EL. constructor; auto.
      - intros v d p2. cbn [wp]. eauto. }
    pose proof (litBound_post true) as HB1. pose proof (litBound_post false) as HB2. pose proof isBound_no as HB3.
    revert HI HB1 HB2 HB3. destruct l eqn:EL; intros; try (cbn [wp]; apply HB3; auto; fail).
    - apply HI; auto.
    - apply HB2; auto.
    - apply HB1; auto.
  Qed.

  Lemma comma_post : tTok op = COMMA -> wp (parseComma l p) (Post X P (Led X P l) p (op :: ts) f).
  Proof.
    intros E. cbn [wp parseComma]. eapply post_ok with (t := op) (u := []) (rest := ts) (tk := []); eauto.
    - now rewrite app_nil_r.
    - split; auto. split; auto. intros op0 r E0 lst tl nx' m' tk' H1 H2 H3. inversion E0; subst op0 r.
      destruct (Tail_over _ _ _ _ _ _ _ H3) as (-> & -> & ->); [left; auto|]. simpl. apply T_comma; auto.
  Qed.

  Lemma colon_post : tTok op = COLON \/ tTok op = ARROW_MAP ->
    wp (parseColon X pe l p) (Post X P (Led X P l) p (op :: ts) f).
  Proof.
    intros E. unfold parseColon.
    set (id := match l with NIdentifier i => Some i | NIntegerLiteral _ _ v => Some (mkIdent (pos p) (fmtD v)) | _ => None end).
    assert (HK : forall i, id = Some i -> Key op l i /\ P (iPos i)).
    { intros i Hi. unfold id, pos in Hi. rewrite HC in Hi. eapply key_of; eauto. }
    destruct id as [i|]; [|cbn [wp]; apply errl; cbn [dStart errorUnsupportedTypes err]; cbv [pos]; rewrite HC; exact HP0].
    destruct (HK i eq_refl) as [HKey HPi].
    wnext HT p1 T1 S1. apply wp_bind. unsame. eapply sub_entry; eauto.
    - intros v d p' ts' tk K1 K2 K3 K4 K5 K6 K7. cbn [wp].
      eapply post_err with (tk := tk); eauto; try congruence. now apply suf_cons.
    - intros v p2 t u rest tk E2 K1 K2 K3 K4 K5 K6. apply wp_bind. unfold entryTrailing.
      pose proof (toks_cur _ _ _ _ _ K1) as HC2.
      assert (HRm : forall tc, real (NEntry (pos p) i v tc)) by (intros; split; congruence).
      assert (HSm : forall tc, startOk P (NEntry (pos p) i v tc)) by (intros tc s Hs; cbn [node_start] in Hs; injection Hs as Hs; rewrite <- Hs; auto).
      destruct (teq (peekTok p2) COMMENT && isSameLineTokens (pos p2) (peekPos p2)) eqn:EQ.
      + apply andb_true_iff in EQ as [E3 E4]. apply teq_true in E3.
        assert (HTr : trailing (lastOf u t) (pk p2)).
        { split; auto. unfold isSameLineTokens, pos, peekPos in E4. rewrite HC2 in E4. lia. }
        destruct (toks_pk_cons _ _ _ _ _ K1) as [rest2 ER]; [congruence|]. rewrite ER in K1, E2.
        wnext K1 p3 T3 S3. unsame. cbn [wp]. pose proof (toks_cur _ _ _ _ _ T3) as HC3.
        eapply post_ok with (t := op) (u := (t :: u) ++ [pk p2]) (rest := rest2) (tk := tk); eauto; try congruence.
        * rewrite lastOf_snoc. exact T3.
        * rewrite E2. simpl. now rewrite <- app_assoc.
        * split; auto. split; auto. intros op0 r E0 lst tl nx' m' tk' H7 H8 H9. inversion E0; subst op0 r.
          change (t :: u ++ [pk p2]) with ((t :: u) ++ [pk p2]) in H9. rewrite lastOf_snoc in H9. replace ((op :: (t :: u) ++ [pk p2]) ++ tl) with (op :: t :: u ++ pk p2 :: tl)
            by (simpl; now rewrite <- app_assoc).
          eapply T_memberComment; eauto. unfold parseInnerComment, pos, currLit in H9. rewrite HC, HC3 in H9. exact H9.
      + cbn [rbind wp]. assert (HTr : ~ trailing (lastOf u t) (pk p2)).
        { intros [E3 E4]. unfold peekTok, isSameLineTokens, pos, peekPos in EQ. rewrite HC2, E3, E4, teq_refl, Z.eqb_refl in EQ. discriminate. }
        eapply post_ok with (t := op) (u := t :: u) (rest := rest) (tk := tk); eauto; try congruence.
        * rewrite lastOf_cons; auto.
        * rewrite E2; auto.
        * split; auto. split; auto. intros op0 r E0 lst tl nx' m' tk' H7 H8 H9. inversion E0; subst op0 r.
          destruct (Tail_over _ _ _ _ _ _ _ H9) as (-> & -> & ->).
          { rewrite H8, lastOf_cons. eapply Entry_over; eauto. }
          rewrite !app_nil_r. unfold nextOf in H8; simpl in H8. subst nx'. cbv [pos]. rewrite HC. apply T_member; auto.
  Qed.
End Leds.

Lemma runLed_post : forall X N pe (P : position -> Prop) p op ts f l k, PE X N pe -> Toks X p (op :: ts) f ->
  (length ts < N)%nat -> posOk P (op :: ts) f -> real l -> startOk P l -> ledFor (tTok op) = Some k ->
  wp (runLed X pe k l p) (Post X P (Led X P l) p (op :: ts) f).
Proof.
  intros X N pe P p op ts f l k HPE HT HL HP HR HS HK. unfold ledFor in HK.
  destruct (tTok op) eqn:E; try discriminate; inversion HK; subst k; cbn [runLed];
    first [ eapply colon_post; eauto; tauto | eapply choice_post; eauto; tauto
          | eapply compare_post; eauto; rewrite E; simpl; tauto
          | eapply size_post; eauto; tauto | eapply regexp_post; eauto; tauto | eapply bits_post; eauto; tauto
          | eapply bound_post; eauto; tauto | eapply occur_post; eauto; tauto | eapply comma_post; eauto; tauto ].
Qed.
