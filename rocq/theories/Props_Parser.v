(** Properties C14, C17-C22, C24-C27, C30, C31, C46, C47: the parser. *)
From Coq Require Import String.
From Verif Require Import Base Utf8 Token Ext Strconv StrconvSpec StrconvProofs Lexer LexSpec LexSpec2 LexerProofs LexOne LexSeq LexHang
  Ast Env Diag Parser ParseSpec ParseStream ParseFacts ParseSound ParseLoop ParseTop ParseComplete ParseFileC ParseShape ParseSource
  ParseUnique ParseTree ParseFuel ParseFrame EnvProofs ParseTried Props_Lexer.
Open Scope string_scope.
Open Scope list_scope.
Open Scope Z_scope.

(** A parse of [s] in the environment [e] that reports nothing, with its tree
    and final parser. *)
Definition clean (X : Ext) (s : bytes) (e : environment) (root : node) (p' : parser) : Prop :=
  parseSource X (parseFuel s) s e = Ok ((Some root, None), p').

(** Lines of a source, for the examples. *)
Fixpoint lines (l : list string) : bytes :=
  match l with [] => [] | a :: r => str a ++ [10] ++ lines r end.

(** The text used by most examples: six rules, three of them referred to. *)
Definition sampleDoc : bytes := lines
  ["; people"; "person = {"; "  name: tstr, ; given"; "  age: uint .size 2,"; "  ? boss: person,";
   "  kind: &colour,"; "}"; "colour = (red: 1, green: 0x02, blue: 3)"; "top = 10"; "span = 0..top";
   "pair = [a: int / tstr // nil, rest: [* person], tag: #6.32(tstr)]"; "$ext /= 1...9 ; last"].

Example sampleDoc_ok : decodable sampleDoc /\ exists root p', clean X0 sampleDoc [] root p' /\ length (env p') = 5%nat.
Proof.
  split; [apply good_by_ascii; vm_compute; reflexivity|]. do 2 eexists. split; [vm_compute; reflexivity|reflexivity].
Qed.

(** ** C14 *)

(** The result does not depend on the recursion fuel and is a return or a panic. *)
Theorem C14_terminates : forall X s e, decodable s ->
  exists r, r <> Hang /\ r <> NoFuel /\ forall fuel, (parseFuel s <= fuel)%nat -> parseSource X fuel s e = r.
Proof.
  intros X s e D. exists (parseSource X (parseFuel s) s e).
  destruct (new_str X s D) as (ts & f & k & HS & HC & _ & HL & HE).
  assert (HF : (length ts <= parseFuel s)%nat) by (unfold parseFuel; lia).
  pose proof (source_post X _ s e (parseFuel s) ts f HS HF (posOk_true ts f)) as H.
  assert (N1 : parseSource X (parseFuel s) s e <> Hang) by (intros E; rewrite E in H; exact H).
  assert (N2 : parseSource X (parseFuel s) s e <> NoFuel) by (intros E; rewrite E in H; exact H).
  split; auto. split; auto. intros fuel HF2. destruct (parseSource_below X _ _ s e HF2); [contradiction|auto].
Qed.

(** Both outcomes occur. *)
Example C14_ex : (exists r, parse X0 sampleDoc = Ok r) /\ parse X0 (str "x = # * b") = Panic.
Proof. split; [eexists; vm_compute; reflexivity|vm_compute; reflexivity]. Qed.

(** ** C47 *)

Section Undecodable.
  Variables (X : Ext) (B : bytes).

  Definition noEof (p : parser) : Prop := UndOk B (lx p) /\ curr p <> EOF /\ peekTok p <> EOF.
  Definition keepsNoEof (p q : parser) : Prop := noEof p -> noEof q.

  Lemma noEof_next : forall p q, pnext X p = Ok q -> keepsNoEof p q.
  Proof.
    intros p q H (H1 & H2 & H3). unfold pnext in H. destruct (scan X (lx p)) as [[t l]| | |] eqn:E; simpl in H; inversion H; subst.
    destruct (scan_undok _ _ _ _ _ H1 E). split; auto.
  Qed.

  Lemma noEof_entry : forall f prec p n d q, parseEntry X f prec p = Ok (n, d, q) -> keepsNoEof p q.
  Proof.
    intros f prec p n d q H.
    refine (parseEntry_R X keepsNoEof _ noEof_next _ f prec p p _ _ H); unfold keepsNoEof; auto.
  Qed.

  Lemma noEof_trailing : forall p tc q, ruleTrailing X p = Ok (tc, q) -> keepsNoEof p q.
  Proof.
    intros p tc q H. refine (ruleTrailing_R X keepsNoEof _ noEof_next p p _ _ H); unfold keepsNoEof; auto.
  Qed.

  Lemma noEof_comment : forall f p n d q, parseComment X f p = Ok (n, d, q) -> keepsNoEof p q.
  Proof.
    intros f p n d q H. refine (parseComment_R X keepsNoEof _ noEof_next f p p _ _ H); unfold keepsNoEof; auto.
  Qed.

  Lemma noEof_rule : forall f p n d q, noEof p -> parseRule X f p = Ok (n, d, q) -> noEof q.
  Proof.
    intros f p n d q HN H. unfold parseRule in H.
    destruct (curr p) eqn:EC; try (inversion H; subst; assumption).
    - eapply noEof_comment; eauto.
    - destruct (pnext X p) as [p1| | |] eqn:E1; try discriminate. cbn [rbind] in H. assert (N1 : noEof p1) by (eapply noEof_next; eauto).
      assert (HR : forall i e p4 p5, registerRule i e p4 = Ok p5 -> noEof p4 -> noEof p5).
      { intros i e p4 p5 HR H4. unfold registerRule in HR. destruct (add (env p4) (iName i) e) as [e' []].
        - destruct (node_start (get (env (setEnv p4 e')) (iName i))); try discriminate. simpl in HR. inversion HR; subst. exact H4.
        - inversion HR; subst. exact H4. }
      destruct (curr p1); try (inversion H; subst; assumption);
        (destruct (pnext X p1) as [p2| | |] eqn:E2; try discriminate; cbn [rbind] in H; assert (N2 : noEof p2) by (eapply noEof_next; eauto);
         match type of H with rbind ?x _ = _ => destruct x as [[[e d1] p3]| | |] eqn:E3 end; try discriminate; cbn [rbind] in H;
         assert (N3 : noEof p3) by (eapply noEof_entry; eauto); destruct d1; [inversion H; subst; assumption|];
         destruct (ruleTrailing X p3) as [[tc p4]| | |] eqn:E4; try discriminate; cbn [rbind] in H;
         assert (N4 : noEof p4) by (eapply noEof_trailing; eauto)).
      + destruct (registerRule {| iPos := pos p; iName := currLit p |} e p4) as [p5| | |] eqn:E5; try discriminate. cbn [rbind] in H.
        inversion H; subst. eapply HR; eauto.
      + inversion H; subst; assumption.
      + inversion H; subst; assumption.
  Qed.

  Lemma noEof_file : forall rf f acc p, noEof p -> forall r, fileLoop X rf f acc p <> Ok r.
  Proof.
    intros rf f. induction f as [|f IH]; intros acc p HN r H; simpl in H.
    - destruct (teq (curr p) EOF) eqn:E; [apply teq_true in E; destruct HN as (_ & N & _); contradiction|discriminate].
    - destruct (teq (curr p) EOF) eqn:E; [apply teq_true in E; destruct HN as (_ & N & _); contradiction|].
      destruct (parseRule X rf p) as [[[n d] p1]| | |] eqn:E1; try discriminate. cbn [rbind] in H.
      destruct (pnext X (handle p1 d)) as [p2| | |] eqn:E2; try discriminate. cbn [rbind] in H.
      eapply IH; [|eauto]. eapply noEof_next; eauto.
      assert (N1 : noEof p1) by (eapply noEof_rule; eauto). destruct d; exact N1.
  Qed.
End Undecodable.

(** A source that is not decodable never yields a tree: with any amount of fuel
    the only possible return is the nil tree caused by a lexer error in the first
    two tokens. *)
Theorem C47_no_tree_unless_decodable : forall X s e fuel r p', bytesOk s -> ~ decodable s ->
  parseSource X fuel s e = Ok (r, p') -> r = (None, None).
Proof.
  intros X s e fuel r p' HB HD H. unfold parseSource, newParser in H.
  assert (U : UndOk (s ++ [32]) (newLexer s)) by (apply newLexer_und; auto; intros K; apply HD; split; auto).
  destruct (pnext X _) as [p1| | |] eqn:E1 in H; try discriminate. cbn [rbind] in H.
  destruct (pnext X p1) as [p2| | |] eqn:E2; try discriminate. cbn [rbind] in H.
  assert (N : noEof (s ++ [32]) p2).
  { eapply noEof_next; [eauto|]. eapply noEof_next; [eauto|]. split; auto. split; discriminate. }
  unfold parseFile in H. destruct (errors (lx p2)); [|inversion H; reflexivity].
  destruct (fileLoop X fuel fuel [] p2) as [r0| | |] eqn:E3; try discriminate. exfalso. eapply noEof_file; eauto.
Qed.

(** An undecodable byte in a comment: the model's fuel always runs out. *)
Example C47_ex : bytesOk (str "x = int ; " ++ [255]) /\ ~ decodable (str "x = int ; " ++ [255]) /\
  parseSource X0 500 (str "x = int ; " ++ [255]) [] = Hang.
Proof.
  split; [apply Forall_forall; intros x Hx; simpl in Hx; repeat (destruct Hx as [<-|Hx]; [lia|]); contradiction|].
  split; [|vm_compute; reflexivity]. intros [_ HD].
  repeat (inversion HD as [|? r w HN HE HR HD2]; clear HD; subst; [vm_compute in HE; inversion HE; subst; first [exfalso; apply HR; reflexivity | simpl in HD2; clear HN HE HR; rename HD2 into HD]]).
Qed.

(** ** C17 *)

(** [tokens X s ts eof]: Scan on the source returns [ts] and then [eof] for ever. *)
Definition tokens (X : Ext) (s : bytes) (ts : list tokInfo) (eof : tokInfo) : Prop :=
  Str X (newLexer s) ts (FEof eof).

(** Sources: ParseFile reports nothing and returns these rules and definitions
    exactly when the tokens are a file of the grammar with these rules and
    definitions, no name is defined twice, the references resolve, the range
    bounds agree, and the first two tokens have no lexer error. *)
Theorem C17_accepts_iff : forall X s e rules defs, decodable s -> envOk e ->
  ((exists p', clean X s e (NCDDL zeroPos rules) p' /\ env p' = e ++ defs) <->
   exists ts eof tk t2 l2, tokens X s ts eof /\ scans X 2 (newLexer s) = Ok (t2, l2) /\ errors l2 = [] /\
     File X ts eof rules tk defs /\ NoDup (names (e ++ defs)) /\ Forall (CheckOk (e ++ defs)) tk).
Proof. exact accepts_iff. Qed.

(** Entries: on a parser that stands before the tokens [u ++ rest] and then EOF,
    [parseEntry] accepts exactly the tokens [u], with the node [n] and the
    deferred checks [tk], if and only if the grammar says so. *)
Theorem C17_entry_iff : forall X eof p fuel t u rest n tk,
  Toks X p ((t :: u) ++ rest) (FEof eof) -> (length ((t :: u) ++ rest) < fuel)%nat ->
  ((exists p', parseEntry X fuel (precedence (curr p)) p = Ok (n, None, p') /\
      Toks X p' (lastOf u t :: rest) (FEof eof) /\ tasks p' = tasks p ++ tk) <->
   Entry X (t :: u) (nextOf rest eof) n tk).
Proof.
  intros X eof p fuel t u rest n tk HT HL. split.
  - intros (p' & E & HT' & HK).
    pose proof (parseEntry_post X (fun _ => True) (FEof eof) fuel (precedence (curr p)) p _ HT HL (posOk_true _ _) (or_intror eq_refl)) as H.
    rewrite E in H. cbn [wp Post] in H.
    destruct H as (ts' & tk' & K1 & K2 & K3 & K4 & K5 & K6 & t1 & u1 & rest1 & E1 & -> & HE).
    pose proof (toks_fun _ _ _ _ _ HT' K1) as ER. inversion ER as [[EL ER']]. subst rest1.
    apply app_inv_tail in E1. inversion E1; subst t1 u1.
    assert (tk' = tk) by (apply app_inv_head with (tasks p); congruence). subst tk'.
    assert (EP : pk p' = nextOf rest eof) by (rewrite (toks_pk _ _ _ _ _ K1); destruct rest; reflexivity).
    rewrite <- EP. exact HE.
  - intros H. destruct (proj1 (complete X eof) _ _ _ _ H fuel (precedence (curr p)) p rest HT eq_refl HL (or_intror eq_refl) t u eq_refl)
      as (p' & A1 & A2 & A3 & A4 & A5). eauto.
Qed.

Example C17_ex : exists rules defs ts eof tk, Str X0 (newLexer sampleDoc) ts (FEof eof) /\ File X0 ts eof rules tk defs /\
  length rules = 7%nat /\ length defs = 5%nat.
Proof.
  assert (D : decodable sampleDoc) by apply sampleDoc_ok.
  assert (E0 : envOk []) by (split; constructor).
  destruct (parseSource X0 (parseFuel sampleDoc) sampleDoc []) as [[[root ds] p']| | |] eqn:E; vm_compute in E; try discriminate.
  assert (C : exists rules defs, clean X0 sampleDoc [] (NCDDL zeroPos rules) p' /\ env p' = [] ++ defs /\ length rules = 7%nat /\ length defs = 5%nat).
  { unfold clean. inversion E; subst. do 2 eexists. split; [vm_compute; reflexivity|]. split; [reflexivity|]. split; reflexivity. }
  destruct C as (rules & defs & C1 & C2 & C3 & C4).
  destruct (proj1 (C17_accepts_iff X0 sampleDoc [] rules defs D E0) (ex_intro _ p' (conj C1 C2))) as (ts & eof & tk & t2 & l2 & H1 & _ & _ & H2 & _).
  exists rules, defs, ts, eof, tk. auto.
Qed.

(** ** C48 *)

(** The grammar is unambiguous on the tokens of a source: at each place at most
    one entry starts, with one end and one tree; a token list has at most one
    list of rules. *)
Theorem C48_entry_unambiguous : forall X s ts eof a u rest u' rest' n tk n' tk', tokens X s ts eof -> ts = a ++ u ++ rest ->
  u ++ rest = u' ++ rest' -> Entry X u (nextOf rest eof) n tk -> Entry X u' (nextOf rest' eof) n' tk' ->
  u = u' /\ n = n' /\ tk = tk'.
Proof.
  intros X s ts eof a u rest u' rest' n tk n' tk' H -> E H1 H2.
  destruct (entry_unique X eof u rest n tk u' rest' n' tk') as (A & _ & B & C); auto.
  eapply stream_suffix. eapply source_stream; eauto.
Qed.

Theorem C48_file_unambiguous : forall X s ts eof rules tk df rules' tk' df', tokens X s ts eof ->
  File X ts eof rules tk df -> File X ts eof rules' tk' df' -> rules = rules' /\ tk = tk' /\ df = df'.
Proof. intros. eapply file_unique; eauto. eapply source_stream; eauto. Qed.

(** ** C18 *)

Theorem C18_references_resolve : forall X s e root p' i, decodable s -> clean X s e root p' ->
  within root (NIdentifier i) -> hd 0 (iName i) <> 36 ->
  bound (env p') (iName i) /\
  (bound e (iName i) \/ exists j v c, iName j = iName i /\ child root (NRule zeroPos j v c) /\ boundTo (env p') (iName i) v).
Proof.
  intros X s e root p' i D C HW H36. destruct (accepted_inv X s e root p' D C)
    as (ts & eof & tk & rules & defs & k & -> & HS & HC & HE & HF & EE & ET & ND & HA).
  assert (HB : bound (env p') (iName i)).
  { destruct (file_shapes X (fun _ => True) (fun t => runTask (e ++ defs) t = None) _ _ _ _ _ HF) with (m := NIdentifier i)
      as [K|[K|[K|[K|K]]]]; auto; try discriminate; try (inversion K; fail); [apply Forall_forall; auto|].
    inversion K as [t nx n tk0 HAt HNx _ HTk| op l t v n tk0 HI | | | | | | | | | | | |]; subst; [|inversion HI].
    inversion HAt; subst; simpl in *.
    - destruct HNx; congruence.
    - exfalso; apply H36; reflexivity.
    - inversion HTk as [|? ? HT1 _]; subst. rewrite EE. apply exists_names.
      simpl in HT1. destruct (exists_ (e ++ defs) (c :: w)); auto; discriminate. }
  split; auto. rewrite EE in HB. destruct (bound_dec e (iName i)) as [HB'|HB']; [left; auto|right].
  destruct (bound_defs _ _ _ HB) as [|[v HI]]; [contradiction|].
  destruct (bound_assoc _ _ HB) as [v' HT]. rewrite EE.
  assert (EA : boundTo defs (iName i) v').
  { unfold boundTo in *. revert HT. clear - HB'. induction e as [|[a b] e IH]; simpl; auto.
    destruct (beq a (iName i)) eqn:EB; [|apply IH; intros HX; apply HB'; right; exact HX].
    apply beq_true in EB. intros _. exfalso. apply HB'. left. exact EB. }
  apply assoc_in in EA. destruct (file_defs _ _ _ _ _ _ HF _ _ EA) as (p & c & HR).
  exists (mkIdent p (iName i)), v', c. split; auto. split; [constructor; auto|auto].
Qed.

Example C18_ex : decodable sampleDoc /\ exists root p', clean X0 sampleDoc [] root p' /\
  exists p, within root (NIdentifier (mkIdent p (str "colour"))).
Proof.
  split; [apply sampleDoc_ok|]. do 2 eexists. split; [vm_compute; reflexivity|].
  eexists. eapply w_child; [apply c_root; right; left; reflexivity|].
  eapply w_child; [apply c_rule|]. eapply w_child; [apply c_map; do 3 right; left; reflexivity|].
  eapply w_child; [apply c_entry|]. eapply w_child; [apply c_enum|]. apply w_self.
Qed.

(** Without its definition the reference is reported. *)
Example C18_ex_reported : exists root d p', parse X0 (str "x = y") = Ok ((root, Some [d]), p') /\ dMsg d = MNotExist (str "y").
Proof. do 3 eexists. split; [vm_compute; reflexivity|reflexivity]. Qed.

(** ** C19 *)

(** [defNames ts] lists the identifiers that stand directly before [=]. *)
Theorem C19_duplicates_reported : forall X s e root p' ts eof, decodable s -> NoDup (names e) -> clean X s e root p' ->
  tokens X s ts eof -> NoDup (names e ++ defNames ts) /\ names (env p') = names e ++ defNames ts.
Proof.
  intros X s e root p' ts eof D ND C HS. destruct (accepted_inv X s e root p' D C)
    as (ts' & eof' & tk & rules & defs & k & -> & HS' & HC & HE & HF & EE & ET & NDD & HA).
  destruct (str_fun _ _ _ _ HS _ _ HS') as [E1 E2]. inversion E2; subst ts' eof'. rewrite (file_defNames _ _ _ _ _ _ HF).
  rewrite EE, names_app. split; auto. specialize (NDD ND). now rewrite names_app in NDD.
Qed.

Example C19_ex : parse X0 sampleDoc <> Panic /\ (exists p' root d, parse X0 (lines ["a = 1"; "a = 2"]) = Ok ((root, Some [d]), p') /\
  dMsg d = MExisting (str "a") 1 5) /\ parse X0 (lines ["a = int .lt 3"; "a = 2"]) = Panic.
Proof. split; [vm_compute; discriminate|]. split; [do 3 eexists; split; vm_compute; reflexivity|vm_compute; reflexivity]. Qed.

(** ** C20, C31 *)

(** Any history of calls on a new environment is answered as the specification
    [Answer] of a write-once map says. *)
Theorem C31_write_once : forall calls pre c post, calls = pre ++ c :: post ->
  exists a, nth_error (runCalls newEnvironment calls) (length pre) = Some a /\ Answer pre c a.
Proof.
  intros calls pre c post E. apply (runCalls_spec calls newEnvironment [] ) with (post := post); auto.
  intros w v. simpl. split; [discriminate|]. intros H; inversion H.
Qed.

Example C31_ex : runCalls newEnvironment [CAdd (str "a") (NIntegerType zeroPos INT); CAdd (str "a") (NBstrType zeroPos BSTR);
    CGet (str "a"); CGet (str "b"); CExists (str "a")] =
  [AErr false; AErr true; ANode (NIntegerType zeroPos INT); ANode NNil; ABool true].
Proof. reflexivity. Qed.

(** Whatever the source (decodable or not) and whatever is reported, a return of
    ParseFile keeps all bindings; without a tree it adds none. The rules of the
    tree that define a name are exactly those parsed without error and written
    with [=] ([Defs]); a new binding is that of the first of them with this
    name. *)
Theorem C20_first_definition_wins : forall X fuel s e r p', parseSource X fuel s e = Ok (r, p') ->
  (forall w v, boundTo e w v -> boundTo (env p') w v) /\
  (fst r = None -> env p' = e) /\
  (forall rules ts f, decodable s -> (parseFuel s <= fuel)%nat -> fst r = Some (NCDDL zeroPos rules) -> Str X (newLexer s) ts f ->
     exists defs, Defs ts rules defs /\
       forall w v, ~ bound e w -> (boundTo (env p') w v <-> First w defs v)).
Proof.
  intros X fuel s e r p' H.
  assert (HF : forall l, env p' = addAll e l -> forall w v, boundTo (env p') w v <-> First w (e ++ l) v).
  { intros l E w v. rewrite E. unfold boundTo. rewrite assoc_first. apply addAll_first. }
  destruct (parseSource_tried _ _ _ _ _ _ H) as [[E1 E2]|(rules & l & E1 & HT & E2)].
  - rewrite E2. split; auto. split; auto. intros rules ts f _ _ E. congruence.
  - split; [|split; [intros; congruence|]].
    + intros w v HB. apply (HF _ E2). apply first_app1. now apply assoc_first.
    + intros rules' ts f D HL E HS. destruct r as [o ds]. cbn [fst] in E. subst o.
      destruct (new_str X s D) as (ts' & f' & k & HS' & _ & _ & HLen & _). destruct (str_fun _ _ _ _ HS _ _ HS') as [-> ->].
      destruct (source_defs X s e fuel ts' f' rules' ds p' HS ltac:(unfold parseFuel in HL; lia) H) as (l' & HD & EL).
      exists l'. split; auto. intros w v HB. rewrite (HF _ EL). split.
      * clear - HB. induction e as [|[a b] e IH]; simpl; auto. intros H. inversion H; subst.
        -- exfalso. apply HB. left. reflexivity.
        -- apply IH; auto. intros K. apply HB. right. exact K.
      * apply first_app2. intros [x HI]. apply HB. apply (in_map fst) in HI. exact HI.
Qed.

Example C20_ex : exists root ds p', parse X0 (lines ["a = 1"; "b = 2"; "a = 3"]) = Ok ((root, Some ds), p') /\
  names (env p') = [str "a"; str "b"] /\ exists p, boundTo (env p') (str "a") (NIntegerLiteral p INT 1).
Proof. do 3 eexists. split; [vm_compute; reflexivity|]. split; [reflexivity|]. eexists. vm_compute. reflexivity. Qed.
