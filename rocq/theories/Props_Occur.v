(** Property C64: occurrences with an explicit upper bound. *)
From Coq Require Import String.
From Verif Require Import Base Utf8 Token Ext Strconv StrconvSpec StrconvProofs Lexer LexSpec LexSpec2 LexerProofs LexOne LexSeq
  Ast Env Diag Parser ParseSpec ParseStream ParseFacts ParseSound ParseLoop ParseTop ParseComplete ParseFileC ParseShape ParseSource
  ParseUnique ParseTree ParseTokens Props_Lexer Props_Parser.
Open Scope string_scope.
Open Scope list_scope.
Open Scope Z_scope.

(** [begins p v n]: what is written first in [n] is the integer [v] at [p], as a
    literal, as the lower bound of an occurrence or as the key of a member (whose
    name the parser puts at the colon). In [b_forgotten] a member with the key [v],
    a comment on its line and then a range operator became an empty range. *)
Inductive begins (p : position) (v : Z) : node -> Prop :=
| b_literal : forall k, begins p v (NIntegerLiteral p k v)
| b_key : forall q x c, begins p v (NEntry q (mkIdent q (fmtD v)) x c)
| b_lower : forall q t u i, begins p v (NNMOccurrence q t (Some (mkUint p UINT v)) u i)
| b_choice : forall q t a b, begins p v a -> begins p v (NTypeChoice q t a b)
| b_bits : forall q t a b, begins p v a -> begins p v (NBits q t a b)
| b_range : forall q t a b, begins p v a -> begins p v (NRange q t a b)
| b_forgotten : begins p v (NRange zeroPos ILLEGAL NNil NNil).

(** Applying an operator keeps the beginning. *)
Lemma infix_begins : forall p v op l t x n tk, Infix op l t x n tk -> begins p v l -> begins p v n.
Proof.
  intros p v op l t x n tk H B.
  inversion H; subst; try (constructor; auto; fail); try (inversion B; fail).
  - exfalso. inversion B; subst; simpl in *; intuition discriminate.
  - exfalso. inversion B; subst; simpl in *; intuition discriminate.
  - match goal with H : Lower _ _ |- _ => inversion H; subst end; inversion B; subst; constructor.
Qed.

Lemma key_begins : forall p v op l i x c, Key op l i -> begins p v l -> begins p v (NEntry (tPos op) i x c).
Proof. intros p v op l i x c H B. inversion H; subst; inversion B; subst. constructor. Qed.

(** An entry whose first token is a numeral begins with it. *)
Lemma grammar_begins : forall X,
  (forall u nx n tk, Entry X u nx n tk -> forall p w r, u = mkTok INT p w :: r -> w <> str "int" ->
     exists v, parseInt w = inr v /\ begins p v n) /\
  (forall u nx n tk, Nud X u nx n tk -> forall p w r, u = mkTok INT p w :: r -> w <> str "int" ->
     exists v, parseInt w = inr v /\ begins p v n) /\
  (forall lst l u nx n tk, Tail X lst l u nx n tk -> forall p v, begins p v l -> begins p v n) /\
  (forall es c ns tk, Entries X es c ns tk -> True).
Proof.
  intros X. apply grammar_ind; intros; subst; auto;
    try (match goal with H : _ :: _ = mkTok INT _ _ :: _ |- _ => injection H as -> ?; simpl in *; discriminate end).
  - (* entry *)
    destruct cms as [|c cms].
    + simpl in H4. injection H4 as -> Hr. destruct (H1 p w u eq_refl H5) as (v & Hv & B). exists v. split; auto.
    + simpl in H4. injection H4 as -> Hr. inversion H; subst. discriminate.
  - (* atom *)
    injection H0 as E1 E2. subst. inversion H; subst; try congruence.
    all: try (unfold floatTok in *; simpl in *; intuition discriminate).
    exists v. split; auto. constructor.
  - eapply infix_begins; eauto.
  - eapply key_begins; eauto.
  - apply H6. eapply key_begins; eauto.
  - apply H3. apply b_forgotten.
Qed.

(** Read as unsigned or as signed, a numeral has the same value. *)
Lemma parse_agree : forall w v v', parseUint w = inr v -> parseInt w = inr v' -> v = v'.
Proof.
  intros w v v' HU HI. destruct w as [|c r]; [discriminate|].
  unfold parseInt in HI.
  destruct (c =? 43) eqn:E1; [apply Z.eqb_eq in E1; subst c; discriminate|].
  destruct (c =? 45) eqn:E2; [apply Z.eqb_eq in E2; subst c; discriminate|].
  cbn [orb] in HI. rewrite HU in HI. cbn [negb andb] in HI.
  destruct (two63 <=? v); congruence.
Qed.

(** The item of an occurrence whose bound was read from the item's first token. *)
Lemma upper_begins : forall X t e nx n tk u, Entry X (t :: e) nx n tk -> Upper t (Some u) -> begins (uPos u) (uVal u) n.
Proof.
  intros X t e nx n tk u HE HU. inversion HU; subst. simpl.
  destruct (proj1 (grammar_begins X) _ _ _ _ HE p w e eq_refl) as (v' & Hv & B); auto.
  replace v with v'; auto. symmetry. eapply parse_agree; eauto.
Qed.

(** What holds of every occurrence with an upper bound. *)
Definition boundOk (m : node) : Prop :=
  forall p t lo u i, m = NNMOccurrence p t lo (Some u) i -> begins (uPos u) (uVal u) i.

Definition Bounds (n : node) : Prop := forall m, within n m -> boundOk m.

Lemma bounds_intro : forall n, boundOk n -> (forall m, child n m -> Bounds m) -> Bounds n.
Proof. intros n H HC m HW. inversion HW; subst; auto. eapply HC; eauto. Qed.

Lemma bounds_nil : forall n, isNil n -> Bounds n.
Proof. intros n [-> | ->]; (apply bounds_intro; [intros ? ? ? ? ? E; discriminate|intros ? HC; inversion HC]). Qed.

Ltac boring := intros ? ? ? ? ? ?; discriminate.

Lemma grammar_bounds : forall X,
  (forall u nx n tk, Entry X u nx n tk -> Bounds n) /\
  (forall u nx n tk, Nud X u nx n tk -> Bounds n) /\
  (forall lst l u nx n tk, Tail X lst l u nx n tk -> Bounds l -> Bounds n) /\
  (forall es c ns tk, Entries X es c ns tk -> Forall Bounds ns).
Proof.
  intros X. apply grammar_ind; intros; subst; auto.
  - apply bounds_intro; [|intros m HC; exfalso; eapply atom_child; eauto].
    intros ? ? ? ? ? E. subst. inversion H.
  - apply bounds_intro; [boring|]. intros m HC; inversion HC; subst.
    rewrite Forall_forall in H2. apply H2. match goal with H : In _ (filter _ _) |- _ => apply filter_In in H; tauto end.
  - apply bounds_intro; [boring|]. intros m HC; inversion HC; subst.
    rewrite Forall_forall in H2. apply H2. match goal with H : In _ (filter _ _) |- _ => apply filter_In in H; tauto end.
  - apply bounds_intro; [boring|]. intros m HC; inversion HC; subst.
    rewrite Forall_forall in H2. now apply H2.
  - apply bounds_intro; [boring|]. intros m HC; inversion HC; subst; auto.
  - apply bounds_intro; [boring|]. intros m HC; inversion HC; subst; auto.
  - apply bounds_intro; [boring|]. intros m HC; inversion HC; subst; auto.
  - apply bounds_intro.
    + intros ? ? ? ? ? E. inversion E; subst. eapply upper_begins; eauto.
    + intros m HC; inversion HC; subst; auto.
  - apply bounds_intro.
    + intros ? ? ? ? ? E. inversion E; subst. eapply upper_begins; eauto.
    + intros m HC; inversion HC; subst; auto.
  - apply bounds_intro; [boring|]. intros m HC; inversion HC; subst. apply bounds_nil; left; auto.
  - apply bounds_intro; [boring|]. intros m HC; inversion HC; subst; auto.
  - apply bounds_intro.
    + intros ? ? ? ? ? E. subst. inversion H2; subst. eapply upper_begins; eauto.
    + intros m0 HC. destruct (infix_child _ _ _ _ _ _ _ H2 HC) as [->|[->|HN]]; auto using bounds_nil.
  - apply bounds_intro; [boring|]. intros m HC; inversion HC; subst; auto.
  - apply H6. apply bounds_intro; [boring|]. intros m0 HC; inversion HC; subst; auto.
  - apply H3. apply bounds_intro; [boring|]. intros m0 HC; inversion HC; subst; apply bounds_nil; left; auto.
Qed.

Lemma file_bounds : forall X ts eof rules tk df, File X ts eof rules tk df -> Bounds (NCDDL zeroPos rules).
Proof.
  intros X ts eof rules tk df H. destruct (grammar_bounds X) as [HG _].
  assert (HR : Forall Bounds rules).
  { induction H; auto; constructor; auto.
    - destruct cms; (apply bounds_intro; [boring|intros m HC; inversion HC]).
    - apply bounds_intro; [boring|]. intros m HC; inversion HC; subst. eapply HG; eauto.
    - apply bounds_intro; [boring|]. intros m HC; inversion HC; subst. eapply HG; eauto. }
  apply bounds_intro; [boring|]. intros m HC; inversion HC; subst. rewrite Forall_forall in HR. auto.
Qed.

(** C64. In an accepted document an occurrence with an explicit upper bound has an
    item that begins with the very numeral that is its bound: the parser peeks at the
    bound and does not step over it. *)
Theorem C64_bound_is_read_again : forall X s e root p', decodable s -> clean X s e root p' ->
  forall p t lo u i, within root (NNMOccurrence p t lo (Some u) i) -> begins (uPos u) (uVal u) i.
Proof.
  intros X s e root p' D C p t lo u i HW.
  destruct (accepted_inv X s e root p' D C) as (ts & eof & tk & rules & defs & k & -> & _ & _ & _ & HF & _).
  exact (file_bounds X _ _ _ _ _ HF _ HW _ _ _ _ _ eq_refl).
Qed.

(** So the item is never a name, a type, a text, a list or a prefixed entry:
    nothing of the form [n*m item] is ever read as meant. *)
Theorem C64_item_is_never_a_type : forall X s e root p', decodable s -> clean X s e root p' ->
  forall p t lo u i, within root (NNMOccurrence p t lo (Some u) i) ->
  In (typeOf i) [Some KIntegerLiteral; Some KEntry; Some KNMOccurrence; Some KTypeChoice; Some KBits; Some KRange].
Proof.
  intros X s e root p' D C p t lo u i HW.
  pose proof (C64_bound_is_read_again X s e root p' D C _ _ _ _ _ HW) as B.
  destruct B; simpl; auto 10.
Qed.

Lemma parseUint_parseInt : forall w v, parseUint w = inr v -> v < two63 -> parseInt w = inr v.
Proof.
  intros w v HU HI. destruct w as [|c r]; [discriminate|].
  unfold parseInt.
  destruct (c =? 43) eqn:E1; [apply Z.eqb_eq in E1; subst c; discriminate|].
  destruct (c =? 45) eqn:E2; [apply Z.eqb_eq in E2; subst c; discriminate|].
  cbn [orb]. rewrite HU. cbn [negb andb].
  apply Z.leb_gt in HI. now rewrite HI.
Qed.

(** [n*m item] in an array: the occurrence is of the numeral [m], and the item is a
    member of the array by itself (kept when it may be one at all). *)
Theorem C64_array : forall X o a op b t c nx n tk va vb,
  tTok o = LBRACK -> tTok c = RBRACK -> tTok a = INT -> tTok b = INT -> tLit a <> str "int" -> tLit b <> str "int" ->
  parseInt (tLit a) = inr va -> 0 <= va -> parseUint (tLit b) = inr vb -> vb < two63 ->
  tTok op = ZERO_OR_MORE \/ tTok op = ONE_OR_MORE ->
  Atom X t RBRACK n tk -> infixTok (tTok t) = false -> infixTok (tTok nx) = false ->
  Entry X [o; a; op; b; t; c] nx
    (NArray (tPos o) (filter isGroupEntry
       [NNMOccurrence (tPos op) (tTok op) (Some (mkUint (tPos a) UINT va)) (Some (mkUint (tPos b) INT vb)) (NIntegerLiteral (tPos b) INT vb); n]))
    tk.
Proof.
  intros X o [ka pa wa] op [kb pb wb] t c nx n tk va vb; cbn [tTok tPos tLit]. intros Ho Hc -> -> Wa Wb Ia La Ub Bb Hop HA Ht Hx.
  pose proof (parseUint_parseInt _ _ Ub Bb) as Ib.
  assert (HB : forall p w v nx', w <> str "int" -> parseInt w = inr v -> infixTok (tTok nx') = false ->
                Entry X [mkTok INT p w] nx' (NIntegerLiteral p INT v) []).
  { intros p w v nx' H1 H2 H3. apply (E_intro X [] (mkTok INT p w) [] [] nx' (NIntegerLiteral p INT v) [] (NIntegerLiteral p INT v) []).
    - constructor.
    - apply N_atom. now apply A_intLit.
    - apply T_end. right. exact H3. }
  assert (HT : Entry X [t] c n tk).
  { rewrite <- (app_nil_r tk). apply (E_intro X [] t [] [] c n tk n []); [constructor| |].
    - apply N_atom. simpl. now rewrite Hc.
    - apply T_end. right. simpl. now rewrite Hc. }
  assert (HO : Entry X [mkTok INT pa wa; op; mkTok INT pb wb] t
    (NNMOccurrence (tPos op) (tTok op) (Some (mkUint pa UINT va)) (Some (mkUint pb INT vb)) (NIntegerLiteral pb INT vb)) []).
  { apply (E_intro X [] (mkTok INT pa wa) [] [op; mkTok INT pb wb] t (NIntegerLiteral pa INT va) [] _ []); [constructor| |].
    - apply N_atom. now apply A_intLit.
    - apply (T_infix X _ _ op (mkTok INT pb wb) [] t (NIntegerLiteral pb INT vb) _ [] []); [discriminate|auto|].
      apply I_occur; auto; constructor; auto. }
  rewrite <- (app_nil_r tk).
  eapply (E_intro X [] o ([mkTok INT pa wa; op; mkTok INT pb wb; t] ++ [c]) [] nx); [constructor| |].
  - apply N_array; auto.
    change ([mkTok INT pa wa; op; mkTok INT pb wb; t]) with ([mkTok INT pa wa; op; mkTok INT pb wb] ++ [t] ++ []).
    change tk with ([] ++ tk). apply Es_cons; [exact HO|].
    rewrite <- (app_nil_r tk). apply Es_cons; [exact HT|constructor].
  - apply T_end. right. exact Hx.
Qed.

(** The sample of examples/parser/main.go: [24*24 byte]. *)
Example C64_ex : exists p' q1 q2 q3 q4 q5 q6 q7 q8 q9 q10,
  clean X0 (lines ["byte = uint .size 1"; "public-key = [24*24 byte]"]) []
    (NCDDL zeroPos
       [NRule zeroPos (mkIdent q1 (str "byte")) (NSizeOp q2 SIZE (NIntegerLiteral q3 INT 1) (NUintType q4 UINT)) None;
        NRule zeroPos (mkIdent q5 (str "public-key"))
          (NArray q6 [NNMOccurrence q7 ZERO_OR_MORE (Some (mkUint q8 UINT 24)) (Some (mkUint q9 INT 24)) (NIntegerLiteral q9 INT 24);
                      NIdentifier (mkIdent q10 (str "byte"))]) None]) p'.
Proof. do 11 eexists. vm_compute. reflexivity. Qed.

(** All ways to begin. *)
Example C64_ex_ways : exists root p' p t lo u i, clean X0 (str "x = [*3 int, 2*4*5 int, 1*2: tstr, 1*3..9, 0*1 / 2]") [] root p' /\
  within root (NNMOccurrence p t lo (Some u) i) /\ typeOf i = Some KEntry.
Proof.
  do 7 eexists. split; [vm_compute; reflexivity|]. split.
  - eapply w_child; [apply c_root; left; reflexivity|]. eapply w_child; [apply c_rule|].
    eapply w_child; [apply c_array; simpl; do 2 right; left; reflexivity|]. apply w_self.
  - reflexivity.
Qed.
