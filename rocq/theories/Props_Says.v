(** Property C79: what diagnostics say is so. *)
From Coq Require Import String.
From Verif Require Import Base Utf8 Token Ext Strconv StrconvSpec StrconvProofs Lexer LexSpec LexSpec2 LexSpec3 LexWords LexSeq LexHang
  Ast Env Diag Parser ParseSpec ParseFacts ParseTop ParseSource ParseLoop ParseFrame Props_Lexer Props_LexFull.
Open Scope string_scope.
Open Scope list_scope.
Open Scope Z_scope.

(** ** Specification *)

(** [t] and [u] are consecutive tokens of the source. *)
Definition Consecutive (X : Ext) (s : bytes) (t u : tokInfo) : Prop :=
  exists n ts l, scans X n (newLexer s) = Ok (ts ++ [t; u], l).

(** The tokens a value may begin with. *)
Definition starters : list token :=
  [IDENT; BOOL; TRUE; FALSE; TSTR; TEXT; TEXT_LITERAL; FLOAT; FLOAT16; FLOAT32; FLOAT64; UINT; INT; NINT; BSTR; BYTES; NULL; NIL;
   LBRACE; LPAREN; LBRACK; COMMENT; OPTIONAL; ZERO_OR_MORE; ONE_OR_MORE; UNWRAP; HASH; AMPERSAND].

(** The numerals that fit into 63 and 64 bits. *)
Definition fits (s : bytes) (m : Z) : Prop := exists v, Numeral s v /\ v < m.

Section Spec.
Variables (X : Ext) (C : tokInfo -> tokInfo -> Prop).

(** The token [t] is of kind [k]. *)
Definition Tok (k : token) (t : tokInfo) : Prop := tTok t = k /\ exists u, C t u.

(** A number, not the name of a type. *)
Definition Number (k : token) (t : tokInfo) : Prop := Tok k t /\ digit (hd 0 (tLit t)).

(** The number of a tag. *)
Definition tagged (t : tokInfo) : Prop := (tTok t = INT \/ tTok t = FLOAT) /\ exists h, C h t /\ tTok h = HASH.

(** [t] comes after [o], with comments only in between. *)
Inductive After (o : tokInfo) : tokInfo -> Prop :=
| af_next t : C o t -> After o t
| af_comment c t : C o c -> tTok c = COMMENT -> After c t -> After o t.

(** [t0 .. t] or [t0 ... t], the operator being [o]. *)
Definition Between (t0 o t : tokInfo) : Prop :=
  C t0 o /\ (tTok o = INCLUSIVE_BOUND \/ tTok o = EXCLUSIVE_BOUND) /\ After o t.

Definition at_ (t : tokInfo) (m : msg) : diag := mkDiag (tPos t) (tPos t) m.
Definition expected (k : token) (t : tokInfo) : diag := at_ t (MExpectedAt k (pLine (tPos t)) (pColumn (tPos t))).

(** [Says e d]: with [e] the names defined in the end, what [d] says is so, of the token it
    points to. There is no constructor for "unexpected literal", "expected uint literal",
    "expected integer literal" and a negative lower bound. *)
Inductive Says (e : environment) : diag -> Prop :=
| sy_rule t u : C t u -> ~ In (tTok t) [IDENT; COMMENT; EOF] -> Says e (expected IDENT t)
| sy_int t : Number INT t -> ~ fits (tLit t) (2 ^ 63) -> Says e (expected INT t)
| sy_uint o t : C o t -> tTok o = ZERO_OR_MORE \/ tTok o = ONE_OR_MORE -> Number INT t -> ~ fits (tLit t) (2 ^ 64) -> Says e (expected UINT t)
| sy_float t : Number FLOAT t -> xParseFloat X (tLit t) = None -> Says e (expected FLOAT t)
| sy_regexp t u : C t u -> tTok t = REGEXP -> tTok u <> TEXT_LITERAL -> tTok u <> IDENT -> Says e (expected TEXT_LITERAL t)
| sy_prefix t u : C t u -> ~ In (tTok t) starters -> Says e (at_ t (MUnexpectedAt (tTok t) (pLine (tPos t)) (pColumn (tPos t))))
| sy_assign t u : C t u -> tTok t = IDENT -> ~ In (tTok u) [ASSIGN; TYPE_CHOICE_ASSIGN; GROUP_CHOICE_ASSIGN] -> Says e (at_ t (MExpectedAssign (tLit t)))
| sy_existing t u v q : C t u -> tTok t = IDENT -> tTok u = ASSIGN -> boundTo e (tLit t) v -> node_start v = Ok q ->
    Says e (at_ t (MExisting (tLit t) (pLine q) (pColumn q)))
| sy_key t0 t u : C t0 t -> C t u -> tTok t = COLON \/ tTok t = ARROW_MAP -> tTok t0 <> IDENT -> (Number INT t0 -> tagged t0) ->
    Says e (at_ t (MUnsupportedTypes (tLit t) [IDENT; INT]))
| sy_size t0 t : C t0 t -> Tok SIZE t -> ~ In (tTok t0) [TSTR; TEXT; BSTR; UINT] -> Says e (at_ t (MUnsupportedTypes (tLit t) [TSTR; BSTR; UINT]))
| sy_compare t0 t u : C t0 t -> C t u -> In (tTok t) [LT; LE; GT; GE; EQ; NE] ->
    (In (tTok t0) [INT; UINT; FLOAT; FLOAT16; FLOAT32; FLOAT64] -> Number INT t0 \/ Number FLOAT t0 \/ tagged t0) ->
    Says e (at_ t (MUnsupportedTypes (tLit t) [INT; FLOAT; UINT]))
| sy_tag o t : C o t -> tTok o = HASH -> tTok t = INT -> ~ fits (tLit t) (2 ^ 64) -> Says e (at_ t MTagMajor)
| sy_tagMajor o t a b k : C o t -> tTok o = HASH -> tTok t = FLOAT -> tLit t = a ++ 46 :: b -> ~ In 46 a -> ~ In 46 b ->
    ~ fits a (2 ^ 64) -> Says e (at_ t (MNumError k a))
| sy_tagNumber o t a b k : C o t -> tTok o = HASH -> tTok t = FLOAT -> tLit t = a ++ 46 :: b -> ~ In 46 a -> ~ In 46 b ->
    fits a (2 ^ 64) -> ~ fits b (2 ^ 64) -> Says e (at_ t (MNumError k b))
| sy_tagInvalid o t : C o t -> tTok o = HASH -> tTok t = FLOAT -> (forall a b, tLit t = a ++ 46 :: b -> In 46 a \/ In 46 b) ->
    Says e (at_ t (MInvalidTag (tLit t)))
| sy_occurrence t0 t u p q : C t0 t -> C t u -> tTok t = ZERO_OR_MORE \/ tTok t = ONE_OR_MORE -> (Number INT t0 -> tagged t0) ->
    Says e (mkDiag p q (MOccType (tTok t)))
| sy_missing t q : Tok IDENT t -> q = tPos t \/ q = posTo (tPos t) (zlen (tLit t)) -> ~ bound e (tLit t) -> Says e (mkDiag (tPos t) q (MNotExist (tLit t)))
| sy_bounds o t t' v v' : Between t o t' -> Tok IDENT t -> Tok IDENT t' ->
    get e (tLit t) = v -> get e (tLit t') = v' -> typeOf v <> typeOf v' ->
    Says e (mkDiag (tPos t) (tPos t') (MRangeTypes (tTok o) (tLit t) (tLit t') v v'))
| sy_floatForInt t0 o t : Between t0 o t -> Number INT t0 -> Number FLOAT t ->
    Says e (mkDiag (tPos t) (posTo (tPos t) (zlen (tLit t) - 1)) MFloatForInt)
| sy_intForFloat t0 o t v : Between t0 o t -> Number FLOAT t0 -> Number INT t -> Numeral (tLit t) v ->
    Says e (mkDiag (tPos t) (posTo (tPos t) (zlen (fmtD v))) MIntForFloat)
| sy_nameForInt t0 o t v : Between t0 o t -> Number INT t0 -> Tok IDENT t -> boundTo e (tLit t) v -> typeOf v <> Some KIntegerLiteral ->
    Says e (mkDiag (tPos t) (posTo (tPos t) (zlen (tLit t))) (match typeOf v with Some KFloatLiteral => MFloatForInt | _ => MIntUpper end))
| sy_nameForFloat t0 o t v : Between t0 o t -> Number FLOAT t0 -> Tok IDENT t -> boundTo e (tLit t) v -> typeOf v <> Some KFloatLiteral ->
    Says e (mkDiag (tPos t) (posTo (tPos t) (zlen (tLit t))) (match typeOf v with Some KIntegerLiteral => MIntForFloat | _ => MFloatUpper end)).
End Spec.

(** ** Tokens *)

Lemma scans_app : forall X a b l ts l', scans X (a + b) l = Ok (ts, l') ->
  exists ts1 ts2 l1, ts = ts1 ++ ts2 /\ length ts1 = a /\ length ts2 = b /\ scans X a l = Ok (ts1, l1) /\ scans X b l1 = Ok (ts2, l').
Proof.
  intros X. induction a as [|a IH]; intros b l ts l' H.
  - exists [], ts, l. cbn [Nat.add] in H. split; auto. split; auto. split; [|auto]. clear - H. revert l ts H. induction b as [|b IH]; intros l ts H; cbn [scans] in H.
    + now injection H as <- _.
    + destruct (scan X l) as [[t l1]| | |]; try discriminate. cbn [rbind] in H. destruct (scans X b l1) as [[ts' l2]| | |] eqn:E; try discriminate.
      cbn [rbind] in H. injection H as <- <-. cbn [length]. f_equal. eapply IH; eauto.
  - cbn [Nat.add scans] in H. destruct (scan X l) as [[t l1]| | |] eqn:E; try discriminate. cbn [rbind] in H.
    destruct (scans X (a + b) l1) as [[ts' l2]| | |] eqn:E2; try discriminate. cbn [rbind] in H. injection H as <- <-.
    destruct (IH _ _ _ _ E2) as (ts1 & ts2 & l3 & -> & <- & <- & H1 & H2). exists (t :: ts1), ts2, l3.
    split; auto. split; auto. split; auto. split; auto. cbn [scans]. rewrite E. cbn [rbind]. now rewrite H1.
Qed.

Lemma scans_snoc : forall X n l ts l1 t l2, scans X n l = Ok (ts, l1) -> scan X l1 = Ok (t, l2) -> scans X (S n) l = Ok (ts ++ [t], l2).
Proof.
  intros X. induction n as [|n IH]; intros l ts l1 t l2 H HS; cbn [scans] in *.
  - injection H as <- <-. now rewrite HS.
  - destruct (scan X l) as [[t0 l0]| | |] eqn:E; try discriminate. cbn [rbind] in *. destruct (scans X n l0) as [[ts' l3]| | |] eqn:E2; try discriminate.
    cbn [rbind] in H. injection H as <- <-. specialize (IH _ _ _ _ _ E2 HS). cbn [scans] in IH. rewrite IH. reflexivity.
Qed.

Lemma scans_len : forall X n l ts l', scans X n l = Ok (ts, l') -> length ts = n.
Proof.
  intros X n l ts l' H. rewrite <- (Nat.add_0_r n) in H at 1. destruct (scans_app _ _ _ _ _ _ H) as (a & b & l1 & -> & <- & E & _).
  apply length_zero_iff_nil in E. subst. now rewrite app_nil_r.
Qed.

Lemma app_inj_length : forall (A : Type) (a b c d : list A), a ++ b = c ++ d -> length a = length c -> a = c /\ b = d.
Proof.
  intros A. induction a as [|x a IH]; intros b [|y c] d H L; try discriminate L; auto.
  injection H as <- H. injection L as L. destruct (IH _ _ _ H L) as [-> ->]. auto.
Qed.

(** Every token is one of the lexical grammar. *)
Lemma token_lexed : forall X s n ts t ts' l, decodable s -> scans X n (newLexer s) = Ok (ts ++ t :: ts', l) ->
  exists text rest, Lexed X (tTok t) text (tLit t) rest.
Proof.
  intros X s n ts t ts' l D H. pose proof (scans_len _ _ _ _ _ H) as L. rewrite app_length in L. cbn [length] in L.
  replace n with (length ts + S (length ts'))%nat in H by lia.
  destruct (scans_app _ _ _ _ _ _ H) as (a & b & l1 & E & La & Lb & H1 & H2).
  destruct (app_inj_length _ _ _ _ _ E) as [<- <-]; [lia|]. cbn [scans] in H2.
  destruct (scan X l1) as [[t1 l2]| | |] eqn:ES; try discriminate. cbn [rbind] in H2. destruct (scans X (length ts') l2) as [[ts1 l3]| | |]; try discriminate.
  cbn [rbind] in H2. injection H2 as <- _ _.
  destruct (C66_scan X s _ _ _ D H1) as (k & _ & HK). destruct (proj1 (HK t1) (ex_intro _ _ ES)) as (g & text & rest & _ & _ & HL & _). eauto.
Qed.

Lemma keyword_facts : forall w k, In (w, k) keywordTable ->
  (isLiteral k w = true -> k = TEXT_LITERAL) /\ (k = TRUE -> w = str "true") /\ (k = FALSE -> w = str "false").
Proof.
  assert (K : forallb (fun x => implb (isLiteral (snd x) (fst x)) (teq (snd x) TEXT_LITERAL) && implb (teq (snd x) TRUE) (beq (fst x) (str "true")) &&
    implb (teq (snd x) FALSE) (beq (fst x) (str "false"))) keywordTable = true) by (vm_compute; reflexivity).
  intros w k H. rewrite forallb_forall in K. specialize (K _ H). cbn [fst snd] in K. apply andb_prop in K. destruct K as [K K3]. apply andb_prop in K.
  destruct K as [K1 K2]. split; [|split].
  - intros E. rewrite E in K1. destruct k; try discriminate K1. reflexivity.
  - intros ->. now apply beq_eq.
  - intros ->. now apply beq_eq.
Qed.

Lemma punct_facts : forall w k, In (w, k) punctTable -> isLiteral k w = false /\ k <> TRUE /\ k <> FALSE.
Proof.
  assert (K : forallb (fun x => negb (isLiteral (snd x) (fst x)) && negb (teq (snd x) TRUE) && negb (teq (snd x) FALSE)) punctTable = true) by (vm_compute; reflexivity).
  intros w k H. rewrite forallb_forall in K. specialize (K _ H). cbn [fst snd] in K. apply andb_prop in K. destruct K as [K K3]. apply andb_prop in K.
  destruct K as [K1 K2]. split; [now apply negb_true_iff|]. split; intros ->; discriminate.
Qed.

Lemma kind_facts : forall w k, kindOf w k ->
  (isLiteral k w = true -> k = TEXT_LITERAL) /\ (k = TRUE -> w = str "true") /\ (k = FALSE -> w = str "false").
Proof. intros w k [H|[-> _]]; [now apply keyword_facts|]. split; [|split]; discriminate. Qed.

Lemma lexed_facts : forall X k text lit rest, Lexed X k text lit rest ->
  (isLiteral k lit = true -> k <> TEXT_LITERAL -> (k = INT \/ k = FLOAT) /\ digit (hd 0 lit)) /\
  (k = TRUE -> lit = str "true") /\ (k = FALSE -> lit = str "false").
Proof.
  intros X k text lit rest H. inversion H; subst; try (split; [|split]; try discriminate; intros; split; auto; unfold digit; cbn [hd]; try lia; fail).
  - destruct (kind_facts _ _ H3) as (K1 & K2 & K3). split; auto. intros E N. exfalso. auto.
  - destruct (punct_facts _ _ H0) as (K1 & K2 & K3). split; [|split]; intros; congruence.
  - destruct (kind_facts _ _ H4) as (K1 & K2 & K3). split; auto. intros E N. exfalso. auto.
  - split; [|split]; try discriminate. intros _ N. now contradiction N.
  - split; [|split]; try discriminate. intros _ N. now contradiction N.
Qed.

(** ** The parser *)

Section Proof.
Variables (X : Ext) (s : bytes).
Hypothesis HD : decodable s.
Let C := Consecutive X s.

Definition Good (p : parser) : Prop := exists n ts, scans X n (newLexer s) = Ok (ts ++ [cur p; pk p], lx p).

Lemma good_cur : forall p, Good p -> C (cur p) (pk p).
Proof. intros p (n & ts & H). exists n, ts, (lx p). exact H. Qed.

Lemma consecutive_facts : forall t u, C t u ->
  (isLiteral (tTok t) (tLit t) = true -> tTok t <> TEXT_LITERAL -> (tTok t = INT \/ tTok t = FLOAT) /\ digit (hd 0 (tLit t))) /\
  (tTok t = TRUE -> tLit t = str "true") /\ (tTok t = FALSE -> tLit t = str "false").
Proof. intros t u (n & ts & l & H). destruct (token_lexed _ _ _ _ _ _ _ HD H) as (text & rest & HL). eapply lexed_facts; eauto. Qed.

(** The token the value read from [p] on begins with. *)
Definition Begins (p : parser) (t : tokInfo) : Prop := cur p = t \/ (curr p = COMMENT /\ After C (cur p) t).

Definition IdentOk (b : tokInfo -> Prop) (i : ident) : Prop := exists t, b t /\ Tok C IDENT t /\ iPos i = tPos t /\ iName i = tLit t.

(** Names and numbers are made of tokens among [b]. *)
Definition NodeOk (b : tokInfo -> Prop) (n : node) : Prop :=
  match n with
  | NIdentifier i => IdentOk b i
  | NIntegerLiteral p _ v => exists t, b t /\ Number C INT t /\ p = tPos t /\ Numeral (tLit t) v
  | NFloatLiteral r _ _ => exists t, b t /\ Number C FLOAT t /\ rStart r = tPos t /\ rEnd r = posTo (tPos t) (zlen (tLit t) - 1)
  | _ => True
  end.

(** What the last token of a value that an operator may follow tells about the value. *)
Definition plain (n : node) (t : tokInfo) : Prop :=
  tTok t <> IDENT /\ (Number C INT t -> tagged C t) /\
  (In (tTok t) [TSTR; TEXT] -> typeOf n = Some KTstrType) /\
  (tTok t = BSTR -> typeOf n = Some KBstrType) /\
  (tTok t = UINT -> typeOf n = Some KUintType) /\
  (tTok t = INT -> typeOf n = Some KIntegerType \/ tagged C t) /\
  (In (tTok t) [FLOAT; FLOAT16; FLOAT32; FLOAT64] -> typeOf n = Some KFloatType \/ tagged C t).

Definition Ends (n : node) (t : tokInfo) : Prop :=
  match n with
  | NIdentifier i => Tok C IDENT t /\ iPos i = tPos t /\ iName i = tLit t
  | NIntegerLiteral _ _ _ => Number C INT t
  | NFloatLiteral _ _ _ => Number C FLOAT t
  | _ => plain n t
  end.

Definition TaskOk (t : task) : Prop :=
  match t with
  | TExists w p => IdentOk (fun _ => True) (mkIdent p w)
  | TIdentBound k i to => exists o t0, tTok o = k /\ Tok C IDENT t0 /\ iPos i = tPos t0 /\ iName i = tLit t0 /\ NodeOk (Between C t0 o) to
  | TIntBound w p q => exists o t0, Number C INT t0 /\ IdentOk (Between C t0 o) (mkIdent p w) /\ q = posTo p (zlen w)
  | TFloatBound w p q => exists o t0, Number C FLOAT t0 /\ IdentOk (Between C t0 o) (mkIdent p w) /\ q = posTo p (zlen w)
  end.

Definition Inv (p : parser) : Prop := Good p /\ Forall TaskOk (tasks p).

Definition Local (d : diag) : Prop := forall e, Says X C e d.

(** After a value with which the loop of operators goes on. *)
Definition Fin (n : node) (q : parser) : Prop := over (curr q) (peekTok q) \/ Ends n (cur q).

Definition Res (b : tokInfo -> Prop) (n : node) (d : option diag) (q : parser) : Prop :=
  match d with None => NodeOk b n /\ Fin n q | Some x => Local x end.

Definition okI (b : tokInfo -> Prop) (r : pres) : Prop := ok r (fun a => let '(n, d, q) := a in Inv q /\ Res b n d q).

(** After a whole entry. *)
Definition ResE (b : tokInfo -> Prop) (n : node) (d : option diag) (q : parser) : Prop :=
  match d with None => NodeOk b n /\ over (curr q) (peekTok q) | Some x => Local x end.

Definition okE (b : tokInfo -> Prop) (r : pres) : Prop := ok r (fun a => let '(n, d, q) := a in Inv q /\ ResE b n d q).

Definition fnI (pe : entryFn) : Prop := forall p, Inv p -> okE (Begins p) (peCurr pe p).

Lemma node_mono : forall (b b' : tokInfo -> Prop) n, (forall t, b t -> b' t) -> NodeOk b n -> NodeOk b' n.
Proof.
  intros b b' n H K. destruct n; try exact Logic.I; cbn [NodeOk] in *.
  - destruct K as (t9 & K1 & K2). exists t9. auto.
  - destruct K as (t9 & K1 & K2). exists t9. auto.
  - destruct K as (t9 & K1 & K2). exists t9. auto.
Qed.

Lemma after_snoc : forall o c t, After C o c -> tTok c = COMMENT -> C c t -> After C o t.
Proof.
  intros o c t H. induction H as [o c H|o c' c H E _ IH]; intros EC HC.
  - eapply af_comment; [exact H|exact EC|]. now apply af_next.
  - eapply af_comment; [exact H|exact E|auto].
Qed.

Lemma after_begins : forall o p t, C o (cur p) -> Begins p t -> After C o t.
Proof. intros o p t H [<-|[E K]]; [now apply af_next|]. eapply af_comment; eauto. Qed.

Lemma next_good : forall p q, Good p -> pnext X p = Ok q -> Good q /\ C (cur p) (cur q) /\ cur q = pk p.
Proof.
  intros p q (n & ts & H) E. unfold pnext in E. destruct (scan X (lx p)) as [[t l]| | |] eqn:ES; try discriminate. injection E as <-. cbn [cur pk lx].
  split; [|split; auto].
  - exists (S n), (ts ++ [cur p]). cbn [cur pk lx]. rewrite <- app_assoc. pose proof (scans_snoc _ _ _ _ _ _ _ H ES) as K. rewrite <- app_assoc in K. exact K.
  - exists n, ts, (lx p). exact H.
Qed.

Lemma next_inv : forall p (Q : parser -> Prop), Inv p -> (forall q, Inv q -> C (cur p) (cur q) -> cur q = pk p -> Q q) -> ok (pnext X p) Q.
Proof.
  intros p Q (HG & HT) HQ q E. destruct (next_good _ _ HG E) as (K1 & K2 & K3). apply HQ; auto. split; auto.
  destruct (keeps_next _ _ _ E) as (_ & _ & tk & _). unfold pnext in E. destruct (scan X (lx p)) as [[t l]| | |]; try discriminate. injection E as <-. exact HT.
Qed.

Lemma pe_inv : forall pe p (Q : node * option diag * parser -> Prop), fnI pe -> Inv p -> (forall n d q, Inv q -> ResE (Begins p) n d q -> Q (n, d, q)) -> ok (peCurr pe p) Q.
Proof. intros pe p Q HP H HQ [[n d] q] E. destruct (HP _ H _ E) as [K1 K2]. now apply HQ. Qed.

Lemma task_inv : forall p t, Inv p -> TaskOk t -> Inv (addTask p t).
Proof. intros p t (HG & HT) H. split; [exact HG|]. cbn [tasks addTask]. apply Forall_app. auto. Qed.

(** The tokens of which [plain] says something. *)
Definition special (t : token) : bool :=
  match t with IDENT | INT | TSTR | TEXT | BSTR | UINT | FLOAT | FLOAT16 | FLOAT32 | FLOAT64 => true | _ => false end.

Lemma plain_other : forall n t, special (tTok t) = false -> plain n t.
Proof.
  intros n t H. unfold plain. split; [|split; [|split; [|split; [|split; [|split]]]]]; try (intros K; rewrite K in H; discriminate H).
  - intros ((K & _) & _). rewrite K in H. discriminate H.
  - intros K. simpl in K. destruct K as [K|[K|[]]]; rewrite <- K in H; discriminate H.
  - intros K. simpl in K. destruct K as [K|[K|[K|[K|[]]]]]; rewrite <- K in H; discriminate H.
Qed.

Ltac istep :=
  match goal with
  | |- okI _ _ => unfold okI
  | |- okE _ _ => unfold okE
  | |- ok (rbind _ _) _ => apply ok_bind
  | HI : Inv ?p |- ok (pnext X ?p) _ => apply (next_inv p _ HI); intros
  | HP : fnI ?pe, HI : Inv ?p |- ok (peCurr ?pe ?p) _ => apply (pe_inv pe p _ HP HI); intros
  | |- ok (Ok _) _ => apply ok_ret
  | |- ok Panic _ => intros ? ?; discriminate
  | |- ok Hang _ => intros ? ?; discriminate
  | |- ok NoFuel _ => intros ? ?; discriminate
  | |- ok (match ?x with _ => _ end) _ => destruct x
  | H : ResE _ _ (Some _) _ |- _ => cbn [ResE] in H
  | H : ResE _ _ None _ |- _ => cbn [ResE] in H; destruct H as [? ?]
  | |- ok (let '(_, _) := ?x in _) _ => destruct x
  | |- Inv _ /\ _ => split; [assumption|]
  | |- ResE _ _ (Some _) _ => cbn [ResE]; assumption
  | |- ResE _ _ None _ => split; [exact Logic.I | assumption]
  | |- Res _ _ (Some _) _ => cbn [Res]; assumption
  | |- Res _ _ None _ => split; [exact Logic.I | first [left; assumption | right; apply plain_other; first [assumption | reflexivity]]]
  | |- forall _, _ => intros
  end.
Ltac isolve := repeat (cbv beta iota; istep).

Lemma commentLoop_I : forall f acc p, Inv p -> curr p = COMMENT ->
  ok (commentLoop X f acc p) (fun a => Inv (snd a) /\ curr (snd a) = COMMENT /\ (cur (snd a) = cur p \/ After C (cur p) (cur (snd a))) /\ peekTok (snd a) <> COMMENT).
Proof.
  induction f as [|f IH]; intros acc p H HK; cbn [commentLoop]; destruct (teq (peekTok p) COMMENT) eqn:E; try (intros ? ?; discriminate).
  - apply ok_ret. cbn [snd]. apply teq_false in E. auto.
  - apply teq_true in E. apply ok_bind. apply (next_inv p _ H). intros q HQ HC EQ. assert (EK : curr q = COMMENT) by (unfold curr; rewrite EQ; exact E).
    eapply ok_mono; [apply IH; auto|]. intros [l q'] (K1 & K2 & K3 & K4). cbn [snd] in *. split; auto. split; auto. split; auto. right.
    destruct K3 as [->|K3]; [now apply af_next|]. eapply af_comment; eauto.
  - apply ok_ret. cbn [snd]. apply teq_false in E. auto.
Qed.

Lemma parseComment_I : forall f p, Inv p -> curr p = COMMENT ->
  ok (parseComment X f p) (fun a => let '(n, d, q) := a in Inv q /\ d = None /\ curr q = COMMENT /\ (cur q = cur p \/ After C (cur p) (cur q)) /\ peekTok q <> COMMENT).
Proof.
  intros f p H HK. unfold parseComment. apply ok_bind. eapply ok_mono; [apply commentLoop_I; eauto|].
  intros [l p1] H1. cbn [snd] in H1. destruct l as [|c [|c2 l]]; apply ok_ret; tauto.
Qed.

Lemma bracketLoop_I : forall pe stop keep, fnI pe -> forall f acc p, Inv p ->
  ok (bracketLoop X pe stop keep f acc p) (fun a => let '(l, d, q) := a in Inv q /\ match d with Some x => Local x | None => curr q = stop end).
Proof.
  intros pe stop keep HP. induction f as [|f IH]; intros acc p H; cbn [bracketLoop]; destruct (teq (curr p) stop) eqn:E; try (intros ? ?; discriminate);
    try (apply ok_ret; split; auto; now apply teq_true).
  isolve; auto.
Qed.

Lemma noUint : forall l e, parseUint l = inl e -> ~ fits l (2 ^ 64).
Proof.
  intros l e H (v & HV). assert (K : parseUint l = inr v) by (apply parseUint_iff; exact HV). congruence.
Qed.

Lemma digit_sign : forall l, digit (hd 0 l) -> hd 0 l <> 43 /\ hd 0 l <> 45.
Proof. intros l H. unfold digit in H. lia. Qed.

Lemma noInt : forall l e, digit (hd 0 l) -> parseInt l = inl e -> ~ fits l (2 ^ 63).
Proof.
  intros l e HN H (v & HV). destruct (digit_sign _ HN) as [N1 N2]. assert (K : parseInt l = inr v) by (apply parseInt_iff; auto). congruence.
Qed.

Lemma number_cur : forall p k, Inv p -> curr p = k -> isLiteral (curr p) (currLit p) = true -> k <> TEXT_LITERAL -> Number C k (cur p).
Proof.
  intros p k (HG & _) EK HL N. pose proof (good_cur _ HG) as K. destruct (consecutive_facts _ _ K) as (F & _).
  destruct (F HL) as [F1 F2]; [unfold curr in EK; congruence|]. split; [split; [exact EK|eauto]|exact F2].
Qed.

Lemma cur_tok : forall p k, Inv p -> curr p = k -> Tok C k (cur p).
Proof. intros p k (HG & _) E. split; [exact E|]. exists (pk p). now apply good_cur. Qed.

(** The names of types are no numbers. *)
Lemma name_lit : forall k l, isLiteral k l = false -> In k [INT; FLOAT; FLOAT16; FLOAT32; FLOAT64] -> ~ digit (hd 0 l).
Proof.
  intros k l H HK HDg. simpl in HK. unfold digit in HDg. destruct HK as [<-|[<-|[<-|[<-|[<-|[]]]]]]; cbn [isLiteral] in H; apply negb_false_iff, beq_eq in H;
    subst l; vm_compute in HDg; destruct HDg; congruence.
Qed.

Ltac plain_tac EK :=
  unfold plain; cbn [typeOf]; unfold curr in EK; rewrite EK; split; [discriminate|split; [|split; [|split; [|split; [|split]]]]];
  try discriminate; try (let K0 := fresh in intros K0; simpl in K0; intuition discriminate); try (intros _; auto; left; reflexivity);
  try (let K0 := fresh in intros ((K0 & _) & _); rewrite EK in K0; discriminate K0).

Lemma integer_I : forall p, Inv p -> curr p = INT -> okI (eq (cur p)) (parseIntegerType p).
Proof.
  intros p H E. unfold parseIntegerType, parseIntegerLiteral. destruct (isLiteral (curr p) (currLit p)) eqn:EL.
  - assert (HN : Number C INT (cur p)) by (apply number_cur; auto; discriminate). destruct (parseInt (currLit p)) as [e|v] eqn:EP; apply ok_ret; split; auto.
    + intros en. apply (sy_int _ _ _ (cur p) HN). eapply noInt; [apply HN|exact EP].
    + split; [|right; exact HN]. exists (cur p). split; auto. split; auto. split; auto. destruct HN as [_ HN]. destruct (digit_sign _ HN) as [N1 N2]. apply parseInt_iff in EP; auto. apply EP.
  - apply ok_ret. split; auto. split; [exact Logic.I|]. right. cbn [Ends]. assert (ND : ~ digit (hd 0 (currLit p))) by (eapply name_lit; [exact EL|]; rewrite E; simpl; tauto).
    plain_tac E. intros (_ & K). exfalso. apply ND. exact K.
Qed.

Lemma float_I : forall p, Inv p -> In (curr p) [FLOAT; FLOAT16; FLOAT32; FLOAT64] -> okI (eq (cur p)) (parseFloatType X p).
Proof.
  intros p H E. unfold parseFloatType, parseFloatLiteral. destruct (isLiteral (curr p) (currLit p)) eqn:EL.
  - assert (EF : curr p = FLOAT).
    { destruct H as [HG _]. destruct (consecutive_facts _ _ (good_cur _ HG)) as (F & _). destruct (F EL) as [[F1|F1] _]; auto;
        unfold curr in *; [|rewrite F1 in E; simpl in E; intuition discriminate]. intros K. rewrite K in E. simpl in E. intuition discriminate. }
    assert (HN : Number C FLOAT (cur p)) by (apply number_cur; auto; discriminate). destruct (xParseFloat X (currLit p)) eqn:EP; apply ok_ret; split; auto.
    + split; [|right; exact HN]. exists (cur p). auto.
    + intros en. apply (sy_float _ _ _ (cur p) HN). exact EP.
  - apply ok_ret. split; auto. split; [exact Logic.I|]. right. cbn [Ends]. simpl in E.
    destruct E as [E|[E|[E|[E|[]]]]]; symmetry in E; plain_tac E.
Qed.

(** [uint] is never a number. *)
Lemma uint_I : forall p, Inv p -> curr p = UINT -> okI (eq (cur p)) (parseUintType p).
Proof.
  intros p H E. unfold parseUintType. destruct (isLiteral (curr p) (currLit p)) eqn:EL.
  - exfalso. destruct H as [HG _]. destruct (consecutive_facts _ _ (good_cur _ HG)) as (F & _). unfold curr in *. destruct (F EL) as [[F1|F1] _]; congruence.
  - apply ok_ret. split; auto. split; [exact Logic.I|]. right. cbn [Ends]. plain_tac E.
Qed.

(** The operand before an occurrence: a number the parser made up, or a value that ends just before. *)
Definition madeUp (left : node) (p : parser) : Prop :=
  (exists u, left = NUintLiteral u) \/ (exists b t0, NodeOk b left /\ Ends left t0 /\ C t0 (cur p)).

Lemma occLower_I : forall left p, Inv p -> madeUp left p -> curr p = ZERO_OR_MORE \/ curr p = ONE_OR_MORE ->
  ok (occLower left p) (fun r => match r with inl _ => True | inr d => Local d end).
Proof.
  intros left p (HG & _) [(u & ->)|(b & t0 & HN & HE & HC)] HO; [apply ok_ret; exact Logic.I|].
  assert (D : (Number C INT t0 -> tagged C t0) -> ok (s0 <- node_start left;; e0 <- node_end left;; Ok (@inr uintLit diag (err (MOccType (curr p)) s0 e0)))
    (fun r => match r with inl _ => True | inr d => Local d end)).
  { intros HT. apply ok_bind; intros a _; apply ok_bind; intros c _; apply ok_ret. intros e. eapply sy_occurrence; [exact HC|apply good_cur; exact HG|exact HO|exact HT]. }
  unfold occLower. destruct left; try (apply D; apply HE); try (apply ok_ret; exact Logic.I).
  - apply D. intros ((K & _) & _). destruct HE as ((K' & _) & _). congruence.
  - apply D. intros ((K & _) & _). destruct HE as ((K' & _) & _). congruence.
  - match goal with |- ok (if ?v <? 0 then _ else _) _ => destruct (v <? 0) eqn:E end; [|apply ok_ret; exact Logic.I].
    exfalso. destruct HN as (t1 & _ & _ & _ & HV). apply value_pos in HV. lia.
Qed.

Lemma occUpper_I : forall p, Inv p -> curr p = ZERO_OR_MORE \/ curr p = ONE_OR_MORE ->
  ok (occUpper X p) (fun r => match r with inl (_, q) => Inv q | inr (d, q) => Inv q /\ Local d end).
Proof.
  intros p H HO. unfold occUpper. destruct (teq (peekTok p) INT && isLiteral (peekTok p) (peekLit p)) eqn:E; [|isolve; auto].
  apply andb_prop in E. destruct E as [E1 E2]. apply ok_bind. apply (next_inv p _ H). intros q HQ HC EQ.
  assert (EI : curr q = INT) by (unfold curr, peekTok in *; rewrite EQ; destruct (tTok (pk p)); try discriminate E1; reflexivity).
  assert (EL : isLiteral (curr q) (currLit q) = true) by (unfold curr, currLit, peekTok, peekLit in *; rewrite EQ; exact E2).
  apply ok_bind. unfold parseUintType, parseUintLiteral. rewrite EL. destruct (parseUint (currLit q)) as [e|v] eqn:EP; apply ok_ret; apply ok_ret.
  - split; auto. intros en. apply (sy_uint _ _ _ (cur p) (cur q)); auto.
    + apply number_cur; auto; discriminate.
    + eapply noUint; exact EP.
  - exact HQ.
Qed.

Lemma parseOccurrence_I : forall b pe left p, fnI pe -> Inv p -> madeUp left p -> curr p = ZERO_OR_MORE \/ curr p = ONE_OR_MORE ->
  okE b (parseOccurrence X pe left p).
Proof.
  intros b pe left p HP H HN HO. unfold parseOccurrence. apply ok_bind. eapply ok_mono; [apply occLower_I; auto|].
  intros [u|d] K; [|isolve]. apply ok_bind. eapply ok_mono; [apply occUpper_I; auto|]. intros [[u' q]|[d q]] K'.
  all: unfold parseUnwrap, parseOptional, parseEnumeration; isolve.
  - destruct K' as [K1 K2]. isolve.
Qed.

Lemma split_dots : forall l, match splitDot l with
  | [a; b] => l = a ++ 46 :: b /\ ~ In 46 a /\ ~ In 46 b
  | _ => forall a b, l = a ++ 46 :: b -> In 46 a \/ In 46 b
  end.
Proof.
  assert (K : forall l, splitDot l <> [] /\ match splitDot l with [] => False | [a] => l = a /\ ~ In 46 a | [a; b] => l = a ++ 46 :: b /\ ~ In 46 a /\ ~ In 46 b
     | _ => exists a b c, l = a ++ 46 :: b ++ 46 :: c end).
  { induction l as [|c l IH]; cbn [splitDot].
    - split; [discriminate|]. split; auto.
    - destruct IH as [N IH]. destruct (c =? 46) eqn:E.
      + apply Z.eqb_eq in E. subst c. split; [discriminate|]. destruct (splitDot l) as [|a [|b [|d r]]]; [contradiction|..].
        * destruct IH as [-> IH]. split; auto.
        * destruct IH as (-> & _). exists [], a, b. reflexivity.
        * destruct IH as (a' & b' & c' & ->). exists [], a', (b' ++ 46 :: c'). reflexivity.
      + apply Z.eqb_neq in E. destruct (splitDot l) as [|a [|b [|d r]]]; [contradiction|..]; (split; [discriminate|]).
        * destruct IH as [-> IH]. split; auto. intros [K|K]; auto.
        * destruct IH as (-> & IH1 & IH2). split; auto. split; auto. intros [K|K]; auto.
        * destruct IH as (a' & b' & c' & ->). exists (c :: a'), b', c'. reflexivity. }
  intros l. destruct (K l) as [N H]. destruct (splitDot l) as [|a [|b [|d r]]]; [contradiction| |exact H|].
  - destruct H as [-> H]. intros x y ->. exfalso. apply H. apply in_or_app. right. now left.
  - destruct H as (a' & b' & c' & ->). intros x y E. destruct (in_dec Z.eq_dec 46 x) as [|NX]; auto. right. revert a' E. induction x as [|c x IH]; intros [|c2 a'] E.
    + injection E as <-. apply in_or_app. right. now left.
    + injection E as _ <-. apply in_or_app. right. right. apply in_or_app. right. now left.
    + injection E as <- _. exfalso. apply NX. now left.
    + injection E as _ E. apply (IH (fun K => NX (or_intror K)) a' E).
Qed.

Lemma tagHead_I : forall p, Inv p -> curr p = HASH ->
  ok (parseTagHead X p) (fun r => match r with inl (_, _, q) => Inv q /\ (special (curr q) = false \/ tagged C (cur q)) | inr (d, q) => Inv q /\ Local d end).
Proof.
  intros p H HO. unfold parseTagHead. assert (DEF : ok (Ok (inl (@None uintLit, @None uintLit, p))) (fun r : (option uintLit * option uintLit * parser) + (diag * parser) => match r with inl (_, _, q) => Inv q /\ (special (curr q) = false \/ tagged C (cur q)) | inr (d, q) => Inv q /\ Local d end)).
  { apply ok_ret. split; auto. left. now rewrite HO. }
  destruct (peekTok p) eqn:EK; try exact DEF.
  - apply ok_bind. apply (next_inv p _ H). intros q HQ HC EQ. assert (ET : tTok (cur q) = INT) by (rewrite EQ; exact EK).
    destruct (parseUint (currLit q)) as [e|v] eqn:EP; apply ok_ret; split; auto; [|right; split; eauto].
    intros en. apply (sy_tag _ _ _ (cur p) (cur q)); auto. eapply noUint; exact EP.
  - apply ok_bind. apply (next_inv p _ H). intros q HQ HC EQ. assert (ET : tTok (cur q) = FLOAT) by (rewrite EQ; exact EK).
    unfold parseFloatTag. pose proof (split_dots (currLit q)) as SD. destruct (splitDot (currLit q)) as [|a [|b [|d r]]];
      try (apply ok_ret; split; auto; intros en; apply (sy_tagInvalid _ _ _ (cur p) (cur q)); auto; fail).
    destruct SD as (SD & N1 & N2). destruct (parseUint a) as [e1|va] eqn:E1; [|destruct (parseUint b) as [e2|vb] eqn:E2].
    + apply ok_ret. split; auto. intros en. apply (sy_tagMajor _ _ _ (cur p) (cur q) a b); auto. eapply noUint; exact E1.
    + apply ok_ret. split; auto. intros en. apply (sy_tagNumber _ _ _ (cur p) (cur q) a b); auto; [|eapply noUint; exact E2].
      exists va. now apply parseUint_iff.
    + apply ok_ret. split; auto. right. split; eauto.
Qed.

Lemma expectPeek_I : forall k p, Inv p -> ok (expectPeek X k p) (fun q => Inv q /\ (q = p \/ curr q = k)).
Proof.
  intros k p H. unfold expectPeek. destruct (teq (peekTok p) k) eqn:E; [|apply ok_ret; auto]. apply (next_inv p _ H). intros q HQ HC EQ. split; auto. right.
  unfold curr. rewrite EQ. now apply teq_true.
Qed.

Lemma identTok : forall p, Inv p -> curr p = IDENT -> IdentOk (eq (cur p)) (mkIdent (pos p) (currLit p)).
Proof. intros p H E. exists (cur p). split; auto. split; [now apply cur_tok|auto]. Qed.

Lemma bracket_I : forall b pe stop keep (mk : list node -> node) f p, fnI pe -> Inv p -> special stop = false -> (forall l t, NodeOk b (mk l) /\ (plain (mk l) t -> Ends (mk l) t)) ->
  okI b (p1 <- pnext X p;; '(l, d, p2) <- bracketLoop X pe stop keep f [] p1;; Ok (mk l, d, p2)).
Proof.
  intros b pe stop keep mk f p HP H HS HM. apply ok_bind. apply (next_inv p _ H). intros q HQ _ _. apply ok_bind.
  eapply ok_mono; [apply bracketLoop_I; eauto|]. intros [[l d] q'] [K1 K2]. apply ok_ret. split; auto. destruct d; [exact K2|]. destruct (HM l (cur q')) as [HM1 HM2].
  split; auto. right. apply HM2. apply plain_other. unfold curr in K2. now rewrite K2.
Qed.

Lemma plain_tagged : forall p i n m v t, special (tTok t) = false \/ tagged C t -> plain (NTag p i n m v) t.
Proof.
  intros p i n m v t [H|H]; [now apply plain_other|]. pose proof H as [[K|K] _]; plain_tac K; auto.
Qed.

Lemma tag_I : forall b pe p, fnI pe -> Inv p -> curr p = HASH -> okI b (parseTag X pe p).
Proof.
  intros b pe p HP H HK. unfold parseTag. apply ok_bind. eapply ok_mono; [apply tagHead_I; auto|]. intros [[[a c] q]|[d q]] [K1 K2].
  - destruct (teq (peekTok q) LPAREN); [|apply ok_ret; split; auto; split; [exact Logic.I|right; now apply plain_tagged]].
    isolve. eapply ok_mono; [apply expectPeek_I; auto|]. intros q9 [K9 [->|E9]]; apply ok_ret; split; auto; (split; [exact Logic.I|]).
    + left. assumption.
    + right. apply plain_other. unfold curr in E9. now rewrite E9.
  - isolve.
Qed.

Lemma boolean_I : forall p, Inv p -> curr p = TRUE \/ curr p = FALSE -> okI (eq (cur p)) (parseBooleanLiteral p).
Proof.
  intros p H HK. unfold parseBooleanLiteral. assert (SP : special (tTok (cur p)) = false) by (unfold curr in HK; destruct HK as [-> | ->]; reflexivity). destruct (beq (currLit p) (str "true")) eqn:E1; [isolve|]. destruct (beq (currLit p) (str "false")) eqn:E2; [isolve|].
  exfalso. destruct H as [HG _]. destruct (consecutive_facts _ _ (good_cur _ HG)) as (_ & F1 & F2). unfold curr, currLit in *.
  destruct HK as [HK|HK]; [rewrite (F1 HK) in E1; discriminate E1|rewrite (F2 HK) in E2; discriminate E2].
Qed.

Definition okN (p : parser) (r : pres) : Prop := ok r (fun a => let '(n, d, q) := a in Inv q /\
  match d with None => NodeOk (eq (cur p)) n /\ (over (curr q) (peekTok q) \/ precedence (curr p) = 0 /\ Ends n (cur q)) | Some x => Local x end).

Lemma okN_I : forall p r, precedence (curr p) = 0 -> okI (eq (cur p)) r -> okN p r.
Proof. intros p r HP H. eapply ok_mono; [exact H|]. intros [[n d] q] [K1 K2]. split; auto. destruct d; auto. destruct K2 as [K2 [K3|K3]]; auto. Qed.

Lemma okN_E : forall p r, okE (eq (cur p)) r -> okN p r.
Proof. intros p r H. eapply ok_mono; [exact H|]. intros [[n d] q] [K1 K2]. split; auto. destruct d; auto. destruct K2; auto. Qed.

Lemma simple_I : forall p n, Inv p -> NodeOk (eq (cur p)) n -> Ends n (cur p) -> okI (eq (cur p)) (Ok (n, None, p)).
Proof. intros p n H HN HE. apply ok_ret. split; auto. split; auto. now right. Qed.

Lemma runNud_I : forall pe f n p, fnI pe -> Inv p -> curr p <> COMMENT -> chooseNud p = Some n -> okN p (runNud X pe f n p).
Proof.
  intros pe f n p HP H NC HC. unfold chooseNud in HC. destruct (teq (curr p) IDENT && teq (peekTok p) COLON) eqn:EC.
  { injection HC as <-. apply andb_prop in EC. destruct EC as [E1 _]. apply teq_true in E1. cbn [runNud]. unfold parseIdentifier. apply okN_I; [now rewrite E1|].
    apply simple_I; auto; [now apply identTok|]. split; [now apply cur_tok|auto]. }
  clear EC. destruct (curr p) eqn:EK; cbn [nudFor] in HC; try discriminate; try congruence; injection HC as <-; cbn [runNud];
    try (apply okN_E; unfold parsePrefixOccurrence; apply parseOccurrence_I; [exact HP|exact H|left; eexists; reflexivity|rewrite EK; tauto]);
    try (apply okN_E; unfold parseOptional, parseEnumeration, parseUnwrap; isolve; fail);
    (apply okN_I; [now rewrite EK|]);
    try (apply float_I; [exact H|]; rewrite EK; simpl; tauto);
    try (apply boolean_I; [exact H|]; rewrite EK; tauto);
    try (apply bracket_I; [exact HP|exact H|reflexivity|]; intros l t; split; [exact Logic.I|auto]);
    try (apply integer_I; assumption); try (apply uint_I; assumption); try (apply tag_I; assumption);
    try (apply simple_I; [exact H|exact Logic.I|]; cbn [Ends]; plain_tac EK; fail).
  unfold parseNamedIdentifier. pose proof (identTok _ H EK) as HI. pose proof (cur_tok _ _ H EK) as HT. destruct (currLit p) as [|c w] eqn:EW; [isolve|]. apply ok_ret. split.
  - destruct (c =? 36); auto. apply task_inv; auto. destruct HI as (t & _ & HI). exists t. auto.
  - split; [exact HI|]. right. destruct (c =? 36); (split; [exact HT|]); split; auto.
Qed.

Lemma bound_I : forall b b' pe left p t0, fnI pe -> Inv p -> NodeOk b' left -> Ends left t0 -> C t0 (cur p) -> curr p = INCLUSIVE_BOUND \/ curr p = EXCLUSIVE_BOUND ->
  okI b (parseBound X pe left p).
Proof.
  intros b b' pe left p t0 HP H HN HE HC HK. unfold parseBound.
  assert (HB : forall q t, C (cur p) (cur q) -> Begins q t -> Between C t0 (cur p) t).
  { intros q t HCq HBq. split; auto. split; auto. eapply after_begins; eauto. }
  assert (HLit : forall isInt : bool, Number C (if isInt then INT else FLOAT) t0 -> okI b (parseLitBound X pe isInt left p)).
  { intros isInt HT0. unfold parseLitBound. apply ok_bind. apply (next_inv p _ H). intros q HQ HCq _. apply ok_bind. apply (pe_inv pe q _ HP HQ). intros to d q2 HQ2 HR. cbv beta iota.
    destruct d as [d|]; [apply ok_ret; split; auto|]. destruct HR as [HR HO]. pose proof (node_mono _ (Between C t0 (cur p)) _ (fun t (K : Begins q t) => HB q t HCq K) HR) as HR'. clear HR.
    destruct to; try (apply ok_ret; split; [assumption|]; split; [exact Logic.I|]; left; exact HO).
    - cbn [node_start node_end rbind]. apply ok_ret. split; [|split; [exact Logic.I|left; exact HO]]. apply task_inv; auto.
      destruct isInt; cbn [TaskOk]; exists (cur p), t0; (split; [exact HT0|]); split; auto; destruct i; exact HR'.
    - destruct isInt; [|apply ok_ret; split; [assumption|]; split; [exact Logic.I|left; exact HO]]. cbn [node_start node_end rbind]. apply ok_ret. split; [auto|]. cbn [Res].
      destruct HR' as (t1 & HR1 & HR & R1 & R2). intros e. rewrite R1, R2. eapply sy_floatForInt; eauto.
    - destruct isInt; [apply ok_ret; split; [assumption|]; split; [exact Logic.I|left; exact HO]|]. cbn [node_start node_end rbind]. apply ok_ret. split; [auto|]. cbn [Res].
      destruct HR' as (t1 & HR1 & HR & -> & R2). intros e. eapply sy_intForFloat; eauto. }
  assert (DEF : okI b (Ok (NRange zeroPos ILLEGAL NNil NNil, None, p))).
  { apply ok_ret. split; auto. split; [exact Logic.I|]. right. apply plain_other. unfold curr in HK. destruct HK as [-> | ->]; reflexivity. }
  destruct left; auto. clear DEF HLit.
  unfold parseIdentBound. apply ok_bind. apply (next_inv p _ H). intros q HQ HCq _. apply ok_bind. apply (pe_inv pe q _ HP HQ). intros to d q2 HQ2 HR. cbv beta iota.
  destruct d as [d|]; [apply ok_ret; split; auto|]. destruct HR as [HR HO]. apply ok_ret. split; [|split; [exact Logic.I|left; exact HO]]. apply task_inv; auto.
  cbn [TaskOk]. destruct HE as (E1 & E2 & E3). exists (cur p), t0. split; [reflexivity|]. split; auto. split; auto. split; auto. eapply node_mono; [|exact HR]. intros t. now apply HB.
Qed.

Lemma okI_E : forall b r, okE b r -> okI b r.
Proof. intros b r H. eapply ok_mono; [exact H|]. intros [[n d] q] [K1 K2]. split; auto. destruct d; auto. destruct K2. split; auto. now left. Qed.

Lemma key_left : forall left t0, Ends left t0 -> match left with NIdentifier _ | NIntegerLiteral _ _ _ => False | _ => True end -> tTok t0 <> IDENT /\ (Number C INT t0 -> tagged C t0).
Proof.
  intros left t0 HE HL. destruct left; try contradiction; try (split; apply HE). destruct HE as ((K & _) & _). split; [congruence|]. intros ((K' & _) & _). congruence.
Qed.

Lemma size_left : forall left t0, Ends left t0 -> typeOf left <> Some KTstrType -> typeOf left <> Some KBstrType -> typeOf left <> Some KUintType -> ~ In (tTok t0) [TSTR; TEXT; BSTR; UINT].
Proof.
  intros left t0 HE N1 N2 N3 K.
  assert (HP : plain left t0 -> False).
  { intros (_ & _ & P1 & P2 & P3 & _). simpl in K. destruct K as [K|[K|[K|[K|[]]]]]; symmetry in K; [apply N1, P1; rewrite K; simpl; auto|apply N1, P1; rewrite K; simpl; auto|auto|auto]. }
  destruct left; try exact (HP HE).
  - destruct HE as ((E & _) & _). rewrite E in K. simpl in K. intuition discriminate.
  - destruct HE as ((E & _) & _). rewrite E in K. simpl in K. intuition discriminate.
  - destruct HE as ((E & _) & _). rewrite E in K. simpl in K. intuition discriminate.
Qed.

Lemma compare_left : forall left t0, Ends left t0 -> typeOf left <> Some KUintType -> typeOf left <> Some KIntegerType -> typeOf left <> Some KFloatType ->
  In (tTok t0) [INT; UINT; FLOAT; FLOAT16; FLOAT32; FLOAT64] -> Number C INT t0 \/ Number C FLOAT t0 \/ tagged C t0.
Proof.
  intros left t0 HE N1 N2 N3 K.
  assert (HP : plain left t0 -> tagged C t0).
  { intros (_ & _ & _ & _ & P1 & P2 & P3). simpl in K. destruct K as [K|[K|K]]; try symmetry in K.
    - destruct (P2 K); [contradiction|auto].
    - destruct N1. auto.
    - destruct P3 as [P3|P3]; [|contradiction|auto]. simpl. tauto. }
  destruct left; try (right; right; exact (HP HE)).
  - destruct HE as ((E & _) & _). rewrite E in K. simpl in K. intuition discriminate.
  - right. left. exact HE.
  - left. exact HE.
Qed.

Lemma colon_I : forall b pe p (i : ident), fnI pe -> Inv p ->
  okI b (p1 <- pnext X p;; '(v, d, p2) <- peCurr pe p1;; match d with Some _ => Ok (v, d, p2) | None => '(tc, p3) <- entryTrailing X p2;; Ok (NEntry (pos p) i v tc, None, p3) end).
Proof.
  intros b pe p i HP H. isolve. unfold entryTrailing. destruct (teq (peekTok q0) COMMENT && isSameLineTokens (pos q0) (peekPos q0)) eqn:E; [|isolve].
  apply andb_prop in E. destruct E as [E _]. apply teq_true in E. apply ok_bind. apply (next_inv q0); auto. intros q1 HQ HC EQ. apply ok_ret. apply ok_ret. split; auto. split; [exact Logic.I|]. right.
  apply plain_other. rewrite EQ. unfold peekTok in E. now rewrite E.
Qed.

Lemma runLed_I : forall b pe k left p t0, fnI pe -> Inv p -> NodeOk b left -> Ends left t0 -> C t0 (cur p) -> ledFor (curr p) = Some k -> okI b (runLed X pe k left p).
Proof.
  intros b pe k left p t0 HP H HN HE HC0 HK. pose proof (good_cur _ (proj1 H)) as HC. destruct (curr p) eqn:EK; cbn [ledFor] in HK; try discriminate; injection HK as <-; cbn [runLed].
  all: try (eapply bound_I; eauto; rewrite EK; tauto); try (apply okI_E; apply parseOccurrence_I; auto; right; exists b, t0; auto).
  all: try (unfold parseComma; apply ok_ret; split; auto; split; auto; left; left; exact EK).
  all: try (unfold parseTypeChoice; isolve; fail).
  all: try (unfold parseComparatorOp; assert (L : typeOf left <> Some KUintType -> typeOf left <> Some KIntegerType -> typeOf left <> Some KFloatType ->
    Local (errorUnsupportedTypes (pos p) (currLit p) [INT; FLOAT; UINT])) by
    (intros N1 N2 N3 e; eapply sy_compare; [exact HC0|exact HC| |exact (compare_left _ _ HE N1 N2 N3)]; unfold curr in EK; rewrite EK; simpl; tauto);
    destruct (typeOf left) as [[]|]; try (apply ok_ret; split; auto; apply L; congruence); clear L; isolve; fail).
  all: try (unfold parseColon; assert (L : match left with NIdentifier _ | NIntegerLiteral _ _ _ => False | _ => True end -> Local (errorUnsupportedTypes (pos p) (currLit p) [IDENT; INT])) by
    (intros HL e; destruct (key_left _ _ HE HL); eapply sy_key; [exact HC0|exact HC| |assumption|assumption]; unfold curr in EK; rewrite EK; tauto);
    destruct left; try (apply ok_ret; split; auto; apply L; exact Logic.I); apply colon_I; auto; fail).
  - unfold parseSizeOperator. assert (L : typeOf left <> Some KTstrType -> typeOf left <> Some KBstrType -> typeOf left <> Some KUintType ->
      Local (errorUnsupportedTypes (pos p) (currLit p) [TSTR; BSTR; UINT])).
    { intros N1 N2 N3 e. eapply sy_size; [exact HC0|split; eauto|]. exact (size_left _ _ HE N1 N2 N3). }
    destruct (typeOf left) as [[]|]; try (apply ok_ret; split; auto; apply L; congruence); clear L; isolve.
  - unfold parseBits. isolve. apply ok_any. intros b9. isolve.
  - unfold parseRegexp. destruct (typeOf left) as [[]|]; try (isolve; fail). destruct (negb (teq (peekTok p) TEXT_LITERAL) && negb (teq (peekTok p) IDENT)) eqn:E; [|isolve].
    apply andb_prop in E. destruct E as [E1 E2]. apply ok_ret. split; auto. intros e. eapply sy_regexp; [exact HC|exact EK|..]; intros K; unfold peekTok in *; rewrite K in *; discriminate.
Qed.

Lemma precedence_pos : forall t, 0 <= precedence t.
Proof. intros t. destruct t; vm_compute; discriminate. Qed.

Lemma ledLoop_I : forall b pe prec, fnI pe -> 0 <= prec -> forall f e p, Inv p -> NodeOk b e -> over (curr p) (peekTok p) \/ prec = 0 /\ Ends e (cur p) -> okE b (ledLoop X pe f prec e p).
Proof.
  intros b pe prec HP HPr. induction f as [|f IH]; intros e p H HN [HO|[E0 HE]]; try (rewrite ledLoop_over; auto; apply ok_ret; split; auto; split; auto); subst prec; cbn [ledLoop].
  all: destruct (negb (teq (curr p) COMMA) && (0 <? precedence (peekTok p))) eqn:EC; [destruct (ledFor (peekTok p)) as [k|] eqn:EK|].
  all: try (intros ? ?; discriminate).
  all: try (apply ok_ret; split; auto; split; auto;
    first [right; destruct (infixTok (peekTok p)) eqn:EI; auto; apply infix_led_iff in EI; destruct EI as [EI1 EI2]; congruence
          |apply andb_false_iff in EC as [E1|E1]; [left; apply negb_false_iff, teq_true in E1; auto|right; destruct (infixTok (peekTok p)) eqn:EI; auto; apply infix_led_iff in EI; destruct EI; congruence]]).
  apply ok_bind. apply (next_inv p _ H). intros q HQ HC EQ. apply ok_bind. eapply ok_mono.
  - eapply runLed_I; eauto. rewrite <- EK. unfold curr, peekTok. now rewrite EQ.
  - intros [[e1 d] q2] [K1 K2]. destruct d; [isolve|]. destruct K2 as [K2 K3]. apply IH; auto. destruct K3; auto.
Qed.

Lemma skipComments_I : forall f p, Inv p -> ok (skipComments X f p) (fun q => Inv q /\ Begins p (cur q) /\ curr q <> COMMENT /\ (q = p \/ curr p = COMMENT)).
Proof.
  intros f p H. unfold skipComments. destruct (teq (curr p) COMMENT) eqn:E.
  - apply teq_true in E. apply ok_bind. eapply ok_mono; [apply parseComment_I; auto|].
    intros [[n d] q] (K1 & _ & K3 & K4 & K5). apply (next_inv q _ K1). intros q' HQ HC EQ. split; auto. split; [|split; [unfold curr; rewrite EQ; exact K5|auto]].
    right. split; auto. destruct K4 as [<-|K4]; [now apply af_next|]. eapply after_snoc; eauto.
  - apply teq_false in E. apply ok_ret. split; auto. split; [now left|auto].
Qed.

Lemma prefix_says : forall p, Inv p -> chooseNud p = None -> Local (errorUnexpectedPrefix (pos p) (curr p)).
Proof.
  intros p H E e. pose proof (good_cur _ (proj1 H)) as HC. refine (sy_prefix _ _ _ _ _ HC _). intros K. unfold chooseNud in E.
  destruct (teq (curr p) IDENT && teq (peekTok p) COLON); [discriminate|]. unfold curr in E. unfold starters in K. simpl in K.
  repeat (destruct K as [K|K]; [rewrite <- K in E; discriminate E|]). exact K.
Qed.

Lemma entry_I : forall f prec p, fnI (parseEntry X f) -> Inv p -> prec = 0 \/ prec = precedence (curr p) -> okE (Begins p) (parseEntry X (S f) prec p).
Proof.
  intros f prec p IH H HPr. cbn [parseEntry]. apply ok_bind. eapply ok_mono; [apply skipComments_I; auto|]. intros q (HQ & HB & NC & HQP). destruct (chooseNud q) as [n|] eqn:EN.
  - apply ok_bind. eapply ok_mono; [apply runNud_I; auto|]. intros [[e d] q2] [K1 K2]. destruct d; [isolve|]. destruct K2 as [K2 K3].
    eapply ok_mono; [apply (ledLoop_I (Begins p)); auto|].
    + destruct HPr as [->| ->]; [lia|apply precedence_pos].
    + eapply node_mono; [|exact K2]. intros t <-. exact HB.
    + destruct K3 as [K3|[K3 K4]]; auto. right. split; auto. destruct HPr as [->| ->]; auto. destruct HQP as [->|HQP]; auto. now rewrite HQP.
    + auto.
  - apply ok_ret. split; auto. now apply prefix_says.
Qed.

Lemma parseEntry_I : forall f, fnI (parseEntry X f).
Proof. induction f as [|f IH]; intros p H; unfold peCurr; [intros ? ?; discriminate|]. apply entry_I; auto. Qed.

Lemma parseEntry_P : forall f prec p, Inv p -> prec = 0 \/ prec = precedence (curr p) -> okE (Begins p) (parseEntry X f prec p).
Proof. intros [|f] prec p H HPr; [intros ? ?; discriminate|]. apply entry_I; auto. apply parseEntry_I. Qed.

(** ** Rules *)

(** A definition of [e] is one of [e']. *)
Definition extends (e e' : environment) : Prop := forall w v, boundTo e w v -> boundTo e' w v.

Definition Top (p : parser) : Prop := Inv p /\ Forall (fun d => forall e', extends (env p) e' -> Says X C e' d) (perrors p).

Lemma ruleTrailing_I : forall p, Inv p -> ok (ruleTrailing X p) (fun a => Inv (snd a)).
Proof. intros p H. unfold ruleTrailing. isolve; auto. Qed.

Lemma extends_refl : forall e, extends e e.
Proof. intros e w v H. exact H. Qed.

Lemma extends_add : forall e w v, extends e (fst (add e w v)).
Proof.
  intros e w v x y H. unfold add. destruct (exists_ e w) eqn:E; [exact H|]. cbn [fst]. unfold boundTo in *. clear E. induction e as [|[k z] e IH]; [discriminate H|].
  cbn [assoc app] in *. destruct (beq k x); auto.
Qed.

Lemma top_keeps : forall p q, Top p -> Inv q -> keeps p q -> Top q.
Proof. intros p q (_ & H) HI (K1 & K2 & _). split; auto. rewrite K2. eapply Forall_impl; [|exact H]. intros d HD' e' HE. apply HD'. now rewrite <- K1. Qed.

Lemma top_diag : forall p d, Top p -> (forall e', extends (env p) e' -> Says X C e' d) -> Top (addDiag p d).
Proof. intros p d (HI & H) HS. split; [exact HI|]. cbn [perrors addDiag env]. apply Forall_app. auto. Qed.

Definition okTop (r : pres) : Prop := ok r (fun a => let '(n, d, q) := a in Top q /\ match d with Some x => Local x | None => True end).

Lemma register_I : forall i v p t u, Top p -> C t u -> tTok t = IDENT -> tTok u = ASSIGN -> iPos i = tPos t -> iName i = tLit t ->
  ok (registerRule i v p) Top.
Proof.
  intros i v p t u H HC ET EU EP EN. unfold registerRule. pose proof (extends_add (env p) (iName i) v) as HX.
  unfold add in *. destruct (exists_ (env p) (iName i)) eqn:EX; cbn [fst] in HX.
  - cbn [env setEnv]. apply ok_bind. intros q EQ. apply ok_ret. unfold exists_ in EX. unfold get in EQ. destruct (assoc (iName i) (env p)) as [n|] eqn:EA; [|discriminate].
    apply top_diag; [exact H|]. cbn [env setEnv]. intros e' HE. unfold err. rewrite EP, EN. eapply sy_existing; [exact HC|exact ET|exact EU| |exact EQ].
    apply HE. rewrite <- EN. exact EA.
  - apply ok_ret. destruct H as [HI H]. split; [exact HI|]. cbn [perrors env setEnv]. eapply Forall_impl; [|exact H]. intros d HS e' HE. apply HS.
    intros w x K. apply HE. now apply HX.
Qed.

Lemma parseRule_I : forall f p, Top p -> curr p <> EOF -> okTop (parseRule X f p).
Proof.
  intros f p H NE. pose proof (proj1 H) as HI. pose proof (good_cur _ (proj1 HI)) as HC. unfold parseRule.
  assert (DEF : ~ In (curr p) [IDENT; COMMENT; EOF] -> okTop (Ok (NNil, Some (errorTokenExpected (pos p) IDENT), p))).
  { intros N. apply ok_ret. split; auto. intros e. exact (sy_rule _ _ _ _ _ HC N). }
  destruct (curr p) eqn:EK; try (apply DEF; simpl; intuition discriminate); try congruence.
  - intros [[n d] q] E. destruct (parseComment_I f p HI EK _ E) as (K1 & -> & _). split; [eapply top_keeps; eauto; eapply parseComment_keeps; eauto|exact Logic.I].
  - apply ok_bind. intros p1 E1. assert (I1 : Inv p1 /\ C (cur p) (cur p1) /\ cur p1 = pk p) by (apply (next_inv p (fun q => Inv q /\ C (cur p) (cur q) /\ cur q = pk p) HI); auto; exact E1).
    destruct I1 as (I1 & C1 & EQ). pose proof (keeps_next _ _ _ E1) as K1.
    assert (DEF1 : ~ In (curr p1) [ASSIGN; TYPE_CHOICE_ASSIGN; GROUP_CHOICE_ASSIGN] -> okTop (Ok (NNil, Some (err (MExpectedAssign (currLit p)) (pos p) (pos p)), p1))).
    { intros N. apply ok_ret. split; [eapply top_keeps; eauto|]. intros e. exact (sy_assign _ _ _ _ _ C1 EK N). }
    assert (HEnt : forall prec (k : node -> option comment -> parser -> pres), (forall q, prec q = 0 \/ prec q = precedence (curr q)) ->
      (forall e tc q, Inv q -> keeps p q -> okTop (k e tc q)) ->
      okTop (p2 <- pnext X p1;; '(e, d, p3) <- parseEntry X f (prec p2) p2;;
        match d with Some _ => Ok (NRule zeroPos (mkIdent (pos p) (currLit p)) NNil None, d, p3)
        | None => '(tc, p4) <- ruleTrailing X p3;; k e tc p4 end)).
    { intros prec k HPr HK. apply ok_bind. intros p2 E2. assert (I2 : Inv p2) by (apply (next_inv p1 Inv I1); auto). pose proof (keeps_trans _ _ _ K1 (keeps_next _ _ _ E2)) as K2.
      apply ok_bind. intros [[e d] p3] E3. destruct (parseEntry_P f _ _ I2 (HPr p2) _ E3) as [I3 R3]. pose proof (keeps_trans _ _ _ K2 (parseEntry_keeps _ _ _ _ _ _ _ E3)) as K3.
      destruct d as [d|]; [apply ok_ret; split; [eapply top_keeps; eauto|exact R3]|].
      apply ok_bind. intros [tc p4] E4. pose proof (ruleTrailing_I _ I3 _ E4) as I4. cbn [snd] in I4. apply HK; auto. eapply keeps_trans; [exact K3|]. eapply ruleTrailing_keeps; eauto. }
    destruct (curr p1) eqn:EK1; try (apply DEF1; simpl; intuition discriminate).
    + apply (HEnt (fun p2 => precedence (curr p2)) (fun e tc p4 => p5 <- registerRule (mkIdent (pos p) (currLit p)) e p4;; Ok (NRule zeroPos (mkIdent (pos p) (currLit p)) e tc, None, p5)) (fun _ => or_intror eq_refl)).
      intros e tc q IQ KQ. apply ok_bind. eapply ok_mono; [eapply register_I; [eapply top_keeps; eauto|exact C1|exact EK|exact EK1|reflexivity|reflexivity]|].
      intros q' T. apply ok_ret. split; auto.
    + apply (HEnt (fun _ => LOWEST) (fun e tc p4 => Ok (NRule zeroPos (mkIdent (pos p) (currLit p)) e tc, None, p4)) (fun _ => or_introl eq_refl)). intros e tc q IQ KQ. apply ok_ret. split; [eapply top_keeps; eauto|exact Logic.I].
    + apply (HEnt (fun _ => LOWEST) (fun e tc p4 => Ok (NRule zeroPos (mkIdent (pos p) (currLit p)) e tc, None, p4)) (fun _ => or_introl eq_refl)). intros e tc q IQ KQ. apply ok_ret. split; [eapply top_keeps; eauto|exact Logic.I].
Qed.

Lemma fileLoop_I : forall rf f acc p, Top p -> ok (fileLoop X rf f acc p) (fun a => Top (snd a)).
Proof.
  intros rf. induction f as [|f IH]; intros acc p H; cbn [fileLoop]; destruct (teq (curr p) EOF) eqn:EE; try (apply ok_ret; exact H); try (intros ? ?; discriminate).
  apply ok_bind. eapply ok_mono; [apply parseRule_I; auto; intros K; rewrite K in EE; discriminate|]. intros [[e d] p1] [T1 L1].
  assert (T2 : Top (handle p1 d)) by (destruct d; [apply top_diag; [exact T1|]; intros e' _; apply L1|exact T1]).
  apply ok_bind. intros p2 E2. apply IH. eapply top_keeps; [exact T2| |eapply keeps_next; exact E2]. apply (next_inv _ Inv (proj1 T2)); auto.
Qed.

(** ** Tasks *)

Lemma sameType_false : forall a b, sameType a b = false -> typeOf a <> typeOf b.
Proof. intros a b H K. unfold sameType in H. rewrite K in H. destruct (typeOf b) as [k|]; [|discriminate]. destruct (kind_eq_dec k k); congruence. Qed.

Lemma exists_bound : forall e w, exists_ e w = true -> boundTo e w (get e w).
Proof. intros e w H. unfold exists_, get, boundTo in *. destruct (assoc w e); [reflexivity|discriminate]. Qed.

Lemma not_bound : forall e w, exists_ e w = false -> ~ bound e w.
Proof. intros e w H K. apply exists_names in K. congruence. Qed.

Lemma runTask_says : forall e t d, TaskOk t -> runTask e t = Some d -> Says X C e d.
Proof.
  intros e t d HT H. destruct t as [w p|k i to|w p q|w p q]; cbn [runTask TaskOk] in *.
  - destruct HT as (t0 & _ & HT & EP & EN). cbn [iPos iName] in *. subst p w. destruct (exists_ e (tLit t0)) eqn:EX; [discriminate|]. injection H as <-.
    apply sy_missing; auto. now apply not_bound.
  - destruct HT as (o & t0 & <- & HT & EP & EN & HN). destruct to; try discriminate. destruct HN as (t1 & HB & HT1 & EP1 & EN1).
    destruct (sameType (get e (iName i)) (get e (iName i0))) eqn:ES; [discriminate|]. injection H as <-. unfold err. rewrite EP, EP1, EN, EN1 in *.
    eapply sy_bounds; eauto. now apply sameType_false.
  - destruct HT as (o & t1 & HI & (t0 & HBt & HT & EP & EN) & ->). cbn [iPos iName] in *. subst p w. destruct (exists_ e (tLit t0)) eqn:EX.
    + pose proof (exists_bound _ _ EX) as HB. assert (K : typeOf (get e (tLit t0)) <> Some KIntegerLiteral) by (intros K; rewrite K in H; discriminate).
      pose proof (sy_nameForInt X C e t1 o t0 _ HBt HI HT HB K) as HS. destruct (typeOf (get e (tLit t0))) as [[]|]; try (injection H as <-; exact HS). discriminate.
    + injection H as <-. apply sy_missing; auto. now apply not_bound.
  - destruct HT as (o & t1 & HI & (t0 & HBt & HT & EP & EN) & ->). cbn [iPos iName] in *. subst p w. destruct (exists_ e (tLit t0)) eqn:EX.
    + pose proof (exists_bound _ _ EX) as HB. assert (K : typeOf (get e (tLit t0)) <> Some KFloatLiteral) by (intros K; rewrite K in H; discriminate).
      pose proof (sy_nameForFloat X C e t1 o t0 _ HBt HI HT HB K) as HS. destruct (typeOf (get e (tLit t0))) as [[]|]; try (injection H as <-; exact HS). discriminate.
    + injection H as <-. apply sy_missing; auto. now apply not_bound.
Qed.

Lemma runTasks_says : forall p, Top p -> env (runTasks p) = env p /\ Forall (Says X C (env p)) (perrors (runTasks p)).
Proof.
  intros p ((_ & HT) & HP). unfold runTasks. assert (K : Forall (Says X C (env p)) (perrors p)) by (eapply Forall_impl; [|exact HP]; intros d HS; apply HS; apply extends_refl).
  assert (G : forall l q, Forall TaskOk l -> env q = env p -> Forall (Says X C (env p)) (perrors q) ->
    env (fold_left (fun q t => handle q (runTask (env p) t)) l q) = env p /\ Forall (Says X C (env p)) (perrors (fold_left (fun q t => handle q (runTask (env p) t)) l q))).
  { induction l as [|t l IH]; intros q HL EQ HS; cbn [fold_left]; [auto|]. inversion HL; subst. apply IH; auto.
    - destruct (runTask (env p) t); exact EQ.
    - destruct (runTask (env p) t) eqn:ER; [|exact HS]. cbn [handle perrors addDiag]. apply Forall_app. split; auto. constructor; auto. eapply runTask_says; eauto. }
  apply G; auto.
Qed.

Lemma new_I : forall e p, newParser X (newLexer s) e = Ok p -> Top p.
Proof.
  intros e p H. unfold newParser, pnext in H. cbn [lx cur pk perrors env tasks] in H. destruct (scan X (newLexer s)) as [[t1 l1]| | |] eqn:E1; try discriminate. cbn [rbind] in H.
  cbn [lx cur pk perrors env tasks] in H. destruct (scan X l1) as [[t2 l2]| | |] eqn:E2; try discriminate. injection H as <-.
  split; [split|]; cbn [lx cur pk perrors env tasks]; auto. exists 2%nat, []. cbn [scans app lx cur pk]. rewrite E1. cbn [rbind]. rewrite E2. reflexivity.
Qed.
End Proof.

(** ** The theorem *)

(** What the diagnostics of [ParseFile] say is so: of the tokens of the source they point
    to, and of the names defined when it returns. *)
Theorem C79_true : forall X s e fuel root ds p', decodable s -> parseSource X fuel s e = Ok ((root, Some ds), p') ->
  Forall (Says X (Consecutive X s) (env p')) ds.
Proof.
  intros X s e fuel root ds p' D H. unfold parseSource in H. destruct (newParser X (newLexer s) e) as [p| | |] eqn:EN; try discriminate. cbn [rbind] in H.
  unfold parseFile in H. destruct (errors (lx p)); [|discriminate]. destruct (fileLoop X fuel fuel [] p) as [[rules p1]| | |] eqn:EF; try discriminate. cbn [rbind] in H.
  injection H as _ HC <-. pose proof (fileLoop_I X s D _ _ _ _ (new_I X s _ _ EN) _ EF) as T. cbn [snd] in T.
  destruct (runTasks_says X s _ T) as [EE HS]. rewrite EE. unfold collect in HC. destruct (perrors (runTasks p1)); [discriminate|]. injection HC as <-. exact HS.
Qed.

(** Four of the messages in parser.go are never given. *)
Theorem C79_never : forall X s e fuel root ds p' d, decodable s -> parseSource X fuel s e = Ok ((root, Some ds), p') -> In d ds ->
  (forall w, dMsg d <> MUnexpectedLiteral w) /\ dMsg d <> MExpectedUintLiteral /\ dMsg d <> MExpectedIntegerLiteral /\ (forall v t, dMsg d <> MOccLower v t).
Proof.
  intros X s e fuel root ds p' d D H HI. pose proof (C79_true _ _ _ _ _ _ _ D H) as K. rewrite Forall_forall in K. specialize (K _ HI).
  inversion K; subst; cbn [dMsg at_ expected]; try (split; [|split; [|split]]; intros; discriminate).
  - destruct (typeOf v) as [[]|]; split; try split; try split; intros; discriminate.
  - destruct (typeOf v) as [[]|]; split; try split; try split; intros; discriminate.
Qed.

(** A source with faults of several kinds, and what is said of them. *)
Definition faulty : bytes := str "a = uint" ++ 10 :: str "a = b" ++ 10 :: str "c = 1..2.5" ++ 10 :: str "d = )" ++ 10 :: str "e int".

Example C79_ex :
  decodable faulty /\
  (exists root p', parse X0 faulty = Ok ((root, Some
    [mkDiag (posAt faulty 9) (posAt faulty 9) (MExisting (str "a") 1 5);
     mkDiag (posAt faulty 22) (posAt faulty 22) (MExpectedAt FLOAT 3 8);
     mkDiag (posAt faulty 30) (posAt faulty 30) (MUnexpectedAt RPAREN 4 5);
     mkDiag (posAt faulty 32) (posAt faulty 32) (MExpectedAssign (str "e"));
     mkDiag (posAt faulty 13) (posAt faulty 13) (MNotExist (str "b"))]), p')).
Proof.
  split; [apply good_by_ascii; vm_compute; reflexivity|]. eexists _, _. vm_compute. reflexivity.
Qed.

(** The sample does not read floats: the constructor [sy_float] at work. *)
Example C79_ex_float : forall e, Says X0 (Consecutive X0 faulty) e (mkDiag (posAt faulty 22) (posAt faulty 22) (MExpectedAt FLOAT 3 8)).
Proof.
  intros e. assert (H : exists l, scans X0 12 (newLexer faulty) = Ok (firstn 10 (match scans X0 12 (newLexer faulty) with Ok (ts, _) => ts | _ => [] end) ++
    [mkTok FLOAT (posAt faulty 22) (str "2.5"); mkTok IDENT (posAt faulty 26) (str "d")], l)) by (eexists; vm_compute; reflexivity).
  destruct H as (l & H). refine (sy_float X0 _ e (mkTok FLOAT (posAt faulty 22) (str "2.5")) _ _).
  - split; [split; [reflexivity|]|]. { eexists _, _, _, _. exact H. } vm_compute. split; discriminate.
  - reflexivity.
Qed.

(** Operands: a size on [bool], a key that is the number of a tag, and a range from a number
    to a name of something else. *)
Definition operands : bytes := str "a = bool .size 3" ++ 10 :: str "b = { #6: int }" ++ 10 :: str "c = 1..d" ++ 10 :: str "d = tstr".

Example C79_ex_operands :
  decodable operands /\
  (exists root p', parse X0 operands = Ok ((root, Some
    [mkDiag (posAt operands 9) (posAt operands 9) (MUnsupportedTypes (str ".size") [TSTR; BSTR; UINT]);
     mkDiag (posAt operands 15) (posAt operands 15) (MExpectedAt IDENT 1 16);
     mkDiag (posAt operands 25) (posAt operands 25) (MUnsupportedTypes (str ":") [IDENT; INT]);
     mkDiag (posAt operands 27) (posAt operands 27) (MExpectedAt IDENT 2 11);
     mkDiag (posAt operands 31) (posAt operands 31) (MExpectedAt IDENT 2 15);
     mkDiag (posAt operands 40) (posAt operands 41) MIntUpper]), p')).
Proof.
  split; [apply good_by_ascii; vm_compute; reflexivity|]. eexists _, _. vm_compute. reflexivity.
Qed.
