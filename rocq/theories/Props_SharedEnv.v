(** Property C114: parsers that share an environment. *)
From Coq Require Import String.
From Verif Require Import Base Utf8 Token Ext Strconv Lexer LexSpec LexSpec2 LexSpec3 Ast Env Diag Parser ParseSpec ParseFacts ParseTop ParseSource ParseLayout ParseEnv Doc SharedEnv
  Props_Lexer Props_LexFull Props_Parser Props_Append Props_Order Props_EnvUse Props_Twice Props_Blocks Props_Session.
Open Scope string_scope.
Open Scope list_scope.
Open Scope Z_scope.

(** ** Specification *)

(** Sources parsed one after the other, each in the environment the ones before it left. *)
Fixpoint oneByOne (X : Ext) (fuel : nat) (src : nat -> bytes) (l : list nat) (e : environment) : res (list fileResult * environment) :=
  match l with
  | [] => Ok ([], e)
  | i :: l => '(r, p) <- parseSource X fuel (src i) e;; '(rs, e) <- oneByOne X fuel src l (env p);; Ok (r :: rs, e)
  end.

(** Parsers for the sources, made before anything is parsed. *)
Definition fresh (X : Ext) (src : nat -> bytes) (l : list nat) (st : pool) : Prop :=
  forall i, In i l -> exists e, newParser X (newLexer (src i)) e = Ok (pParser st i).

(** ** Proofs *)

Lemma new_with : forall X l e e' p, newParser X l e = Ok p -> newParser X l e' = Ok (withEnv e' p).
Proof.
  intros X l e e' p H. unfold newParser, pnext in *. cbn [lx cur pk perrors env tasks] in *. destruct (scan X l) as [[t l1]| | |]; try discriminate. cbn [rbind lx cur pk perrors env tasks] in *.
  destruct (scan X l1) as [[t2 l2]| | |]; try discriminate. cbn [rbind] in *. injection H as <-. reflexivity.
Qed.

(** C114. Parsers made beforehand and called one after the other, each once and in any order,
    return what is returned if each source is parsed in the environment the earlier calls left;
    when the parsers were made does not matter. *)
Theorem C114_in_turn : forall X fuel src l st, NoDup l -> fresh X src l st ->
  ('(rs, st') <- callAll X fuel l st;; Ok (rs, pEnv st')) = oneByOne X fuel src l (pEnv st).
Proof.
  intros X fuel src l. induction l as [|i l IH]; intros st ND HF; [reflexivity|]. inversion ND as [|? ? NI ND']; subst. cbn [callAll oneByOne]. destruct (HF i (or_introl eq_refl)) as (e & E).
  unfold call, parseSource. rewrite (new_with X _ e (pEnv st) _ E). cbn [rbind]. destruct (parseFile X fuel (withEnv (pEnv st) (pParser st i))) as [[r p]| | |]; cbn [rbind]; auto.
  set (st1 := mkPool (env p) _). change (env p) with (pEnv st1). rewrite <- (IH st1 ND').
  - destruct (callAll X fuel l st1) as [[rs st2]| | |]; reflexivity.
  - intros j J. unfold st1. cbn [pParser]. destruct (Nat.eqb_spec j i) as [->|N]; [contradiction|]. apply HF. now right.
Qed.

Lemma carry_extends : forall evs e e' ds, carry evs e = Ok (e', ds) -> extends e e'.
Proof.
  induction evs as [|[d|w a v] evs IH]; intros e e' ds H; cbn [carry] in H.
  - injection H as <- _. intros w v K. exact K.
  - destruct (carry evs e) as [[e1 d1]| | |] eqn:E; try discriminate. cbn [rbind] in H. injection H as <- _. eauto.
  - destruct (assoc w e) as [old|] eqn:A.
    + destruct (node_start old); try discriminate. cbn [rbind] in H. destruct (carry evs e) as [[e1 d1]| | |] eqn:E; try discriminate. cbn [rbind] in H. injection H as <- _. eauto.
    + intros x y K. apply (IH _ _ _ H). unfold boundTo in *. rewrite assoc_snoc, K. reflexivity.
Qed.

Lemma file_grows : forall X fuel p r q, parseFile X fuel p = Ok (r, q) -> extends (env p) (env q) /\ exists new, perrors q = perrors p ++ new.
Proof.
  intros X fuel p r q H. unfold parseFile in H. destruct (errors (lx p)); [|injection H as _ <-; split; [intros w v K; exact K|exists []; now rewrite app_nil_r]].
  destruct (fileLoop X fuel fuel [] p) as [[rules p1]| | |] eqn:EF; try discriminate. cbn [rbind] in H. injection H as _ <-. destruct (runTasks_spec p1) as (R1 & R2 & _). rewrite R1, R2.
  destruct (loop_events X fuel fuel [] (coreOf p)) as (evs & fin & K). specialize (K (perrors p) (env p)). rewrite put_core, EF in K. unfold looped in K.
  destruct (carry evs (env p)) as [[e' new]| | |] eqn:EC; try discriminate. cbn [rbind] in K. destruct fin as [[rules' k]| | |]; try discriminate. cbn [rbind] in K. injection K as _ ->. cbn [put env perrors tasks].
  split; [eapply carry_extends; eauto|]. eexists. now rewrite <- app_assoc.
Qed.

(** Whatever calls are made, in whatever states the parsers are: a definition stays as it was
    made first, and the diagnostics of a parser are only added to. *)
Theorem C114_grows : forall X fuel l st rs st', callAll X fuel l st = Ok (rs, st') ->
  (forall w v, boundTo (pEnv st) w v -> boundTo (pEnv st') w v) /\ (forall i, exists new, perrors (pParser st' i) = perrors (pParser st i) ++ new) /\
  (forall i, ~ In i l -> pParser st' i = pParser st i).
Proof.
  intros X fuel l. induction l as [|i l IH]; intros st rs st' H; cbn [callAll] in H; [injection H as _ <-; split; [auto|]; split; auto; intros i; exists []; now rewrite app_nil_r|].
  destruct (call X fuel i st) as [[r st1]| | |] eqn:EC; try discriminate. cbn [rbind] in H. destruct (callAll X fuel l st1) as [[rs1 st2]| | |] eqn:EA; try discriminate. cbn [rbind] in H. injection H as _ <-.
  destruct (IH _ _ _ EA) as (A1 & A2 & A3). unfold call in EC. destruct (parseFile X fuel (withEnv (pEnv st) (pParser st i))) as [[r0 p]| | |] eqn:EP; try discriminate. cbn [rbind] in EC. injection EC as _ <-.
  destruct (file_grows _ _ _ _ _ EP) as (G1 & new & G2). cbn [withEnv env perrors pEnv pParser] in *. split; [|split].
  - intros w v K. apply A1. now apply G1.
  - intros j. destruct (A2 j) as (n2 & E2). destruct (Nat.eqb_spec j i) as [->|N]; [exists (new ++ n2); now rewrite E2, G2, app_assoc|now exists n2].
  - intros j J. rewrite A3 by (intros K; apply J; now right). destruct (Nat.eqb_spec j i) as [->|N]; auto. exfalso. apply J. now left.
Qed.

(** Being told that a name does not exist, from one environment to a later one. *)
Lemma missing_later : forall e e' tk d n, extends e e' -> dMsg d = MNotExist n -> (In d (failures e' tk) <-> In d (failures e tk) /\ exists_ e' n = false).
Proof.
  intros e e' tk d n EX M. assert (ONE : forall t, runTask e' t = Some d <-> runTask e t = Some d /\ exists_ e' n = false).
  { assert (B : forall w, exists_ e' w = false -> exists_ e w = false).
    { intros w K. unfold exists_ in *. destruct (assoc w e) as [v|] eqn:A; auto. specialize (EX w v A). unfold boundTo in EX. now rewrite EX in K. }
    assert (CK : forall E t, runTask E t = Some d -> exists_ E n = false /\ match t with TExists w _ | TIntBound w _ _ | TFloatBound w _ _ => w = n | TIdentBound _ _ _ => False end).
    { intros E t K. destruct t as [w p|k i to|w s u|w s u]; cbn [runTask] in K.
      - destruct (exists_ E w) eqn:W; [discriminate|]. injection K as <-. injection M as <-. auto.
      - destruct to; try discriminate K. destruct (sameType _ _); [discriminate K|]. injection K as <-. discriminate M.
      - destruct (exists_ E w) eqn:W; [destruct (typeOf (get E w)) as [[]|]; try discriminate K; injection K as <-; discriminate M|]. injection K as <-. injection M as <-. auto.
      - destruct (exists_ E w) eqn:W; [destruct (typeOf (get E w)) as [[]|]; try discriminate K; injection K as <-; discriminate M|]. injection K as <-. injection M as <-. auto. }
    intros t. split; intros K.
    - destruct (CK _ _ K) as [N T]. split; auto. destruct t; try destruct T; cbn [runTask] in *; rewrite N in K; rewrite (B _ N); exact K.
    - destruct K as [K N]. destruct (CK _ _ K) as [N' T]. destruct t; try destruct T; cbn [runTask] in *; rewrite N' in K; rewrite N; exact K. }
  unfold failures. rewrite !in_flat_map. split.
  - intros (t & T & K). destruct (runTask e' t) as [d'|] eqn:R; [|destruct K]. destruct K as [->|[]]. apply ONE in R as [R N]. split; auto. exists t. split; auto. rewrite R. now left.
  - intros [(t & T & K) N]. destruct (runTask e t) as [d'|] eqn:R; [|destruct K]. destruct K as [->|[]]. exists t. split; auto. rewrite (proj2 (ONE t)); auto. now left.
Qed.

(** A parser has returned a tree. Then others are called, which leave the environment [e'], and
    then it is called again: the tree is empty, nothing is defined, and its diagnostics are
    repeated with those of its deferred checks in [e'] behind them. Of the names it missed the
    first time, these name the ones that have not been defined since, and no others; what was
    said the first time is not taken back. *)
Theorem C114_again : forall X fuel f s e t ds p e', decodable s -> parseSource X fuel s e = Ok ((Some t, ds), p) -> ~ badString X s -> extends (env p) e' ->
  exists later q, parseFile X f (withEnv e' p) = Ok ((Some (NCDDL zeroPos []), given (listed ds ++ later)), q) /\ env q = e' /\ perrors q = listed ds ++ later /\ Forall late later /\
    forall d n, dMsg d = MNotExist n -> (In d later <-> In d (listed ds) /\ ~ (exists v, boundTo e' n v)).
Proof.
  intros X fuel f s e t ds p e' D H B EX. destruct (ended _ _ _ _ _ _ _ H) as [_ C]. assert (E : errors (lx p) = []) by (pose proof (passed _ _ _ _ _ _ _ D H) as PA; destruct (errors (lx p)) as [|x y]; auto; exfalso; apply B, (proj2 PA); discriminate).
  destruct (order_parts _ _ _ _ _ _ _ D H) as (now & E1 & E2 & _ & K2 & _). exists (failures e' (tasks p)), (runTasks (withEnv e' p)).
  destruct (runTasks_spec (withEnv e' p)) as (R1 & R2 & _). cbn [withEnv perrors env tasks] in R1, R2. rewrite <- E2 in R1.
  split; [rewrite (once X f (withEnv e' p) C E), R1; reflexivity|]. split; [exact R2|]. split; [exact R1|]. split; [apply failures_late|].
  intros d n M. rewrite (missing_later (env p) e' (tasks p) d n EX M), E2, E1, in_app_iff.
  assert (DEF : exists_ e' n = false <-> ~ exists v, boundTo e' n v) by (unfold exists_, boundTo; destruct (assoc n e'); split; intros K; try discriminate; auto; [exfalso; apply K; eauto|intros (v & V); discriminate]).
  rewrite DEF. split; [intros [K N]; auto|]. intros [[K|K] N]; auto. exfalso. rewrite Forall_forall in K2. apply (K2 d K). unfold ofNames. rewrite M. exact I.
Qed.

(** The same for calls of the parsers: the [i]-th one is called, then others in any number and
    order, and then the [i]-th one again. *)
Theorem C114_recheck : forall X fuel src i l st t ds st1 rs st2, decodable (src i) -> fresh X src [i] st -> ~ badString X (src i) -> ~ In i l ->
  call X fuel i st = Ok ((Some t, ds), st1) -> callAll X fuel l st1 = Ok (rs, st2) ->
  exists later st3, call X fuel i st2 = Ok ((Some (NCDDL zeroPos []), given (listed ds ++ later)), st3) /\ pEnv st3 = pEnv st2 /\ Forall late later /\
    forall d n, dMsg d = MNotExist n -> (In d later <-> In d (listed ds) /\ ~ (exists v, boundTo (pEnv st2) n v)).
Proof.
  intros X fuel src i l st t ds st1 rs st2 D HF B NI H1 H2. destruct (HF i (or_introl eq_refl)) as (e & E). unfold call in H1.
  destruct (parseFile X fuel (withEnv (pEnv st) (pParser st i))) as [[r p]| | |] eqn:EP; try discriminate. cbn [rbind] in H1. injection H1 as -> <-.
  assert (PS : parseSource X fuel (src i) (pEnv st) = Ok ((Some t, ds), p)) by (unfold parseSource; rewrite (new_with X _ e (pEnv st) _ E); exact EP).
  destruct (C114_grows _ _ _ _ _ _ H2) as (G1 & _ & G3). specialize (G3 i NI). cbn [pEnv pParser] in G1, G3. rewrite Nat.eqb_refl in G3.
  destruct (C114_again X fuel fuel (src i) (pEnv st) t ds p (pEnv st2) D PS B G1) as (later & q & A1 & A2 & _ & A4 & A5).
  unfold call. rewrite G3, A1. cbn [rbind]. exists later. eexists. split; [reflexivity|]. cbn [pEnv]. auto.
Qed.

(** A tree and no diagnostics. *)
Definition accepted (r : list node) : fileResult := (Some (NCDDL zeroPos r), None).

Lemma one_chain : forall X fuel src l rules e e', Forall (fun i => decodable (src i) /\ (parseFuel (src i) <= fuel)%nat) l -> oneByOne X fuel src l e = Ok (map accepted rules, e') ->
  Chain X e (combine (map src l) rules) e' /\ length rules = length l.
Proof.
  intros X fuel src l. induction l as [|i l IH]; intros rules e e' HF H; cbn [oneByOne] in H.
  - injection H as H1 <-. destruct rules; [|discriminate]. split; [constructor|reflexivity].
  - inversion HF as [|? ? [D L] HF']; subst. destruct (C14_terminates X (src i) e D) as (res & _ & _ & R). pose proof (R _ L) as R1. pose proof (R _ (le_n _)) as R2. rewrite <- R1 in R2. clear R R1.
    destruct (parseSource X fuel (src i) e) as [[r p]| | |]; try discriminate. cbn [rbind] in H. destruct (oneByOne X fuel src l (env p)) as [[rs e1]| | |] eqn:E; try discriminate. cbn [rbind] in H. injection H as H1 <-.
    destruct rules as [|r0 rules]; [discriminate|]. cbn [map] in H1. injection H1 as -> ->. destruct (IH _ _ _ HF' E) as [A B]. split; [|cbn [length]; now rewrite B].
    cbn [map combine]. econstructor; [exact R2|exact A].
Qed.

(** Sources that are accepted in turn in one environment make one file that is accepted, with
    the rules of all of them in the order of the calls and the same definitions, positions apart.
    The conditions are those of C91. *)
Theorem C114_file : forall X fuel src l st rules st', NoDup l -> l <> [] -> fresh X src l st -> pEnv st = [] -> Forall (fun i => decodable (src i) /\ (parseFuel (src i) <= fuel)%nat) l ->
  callAll X fuel l st = Ok (map accepted rules, st') -> glued [] rules -> (forall w, bound (pEnv st') w -> hd 0 w <> 36) ->
  exists r p, clean X (Props_Blocks.lines (map src l)) [] (NCDDL zeroPos r) p /\ map strip r = map strip (concat rules) /\ map bareDef (env p) = map bareDef (pEnv st').
Proof.
  intros X fuel src l st rules st' ND NE HF E0 HD H G NS. pose proof (C114_in_turn X fuel src l st ND HF) as T. rewrite H, E0 in T. cbn [rbind] in T. symmetry in T.
  destruct (one_chain _ _ _ _ _ _ _ HD T) as [A B].
  assert (LN : length (map src l) = length rules) by (now rewrite map_length).
  assert (F1 : map fst (combine (map src l) rules) = map src l) by (clear - LN; revert rules LN; induction (map src l) as [|a m IH]; intros [|r rules] LN; try discriminate; cbn [combine map fst]; auto; f_equal; auto).
  assert (F2 : map snd (combine (map src l) rules) = rules) by (clear - LN; revert rules LN; induction (map src l) as [|a m IH]; intros [|r rules] LN; try discriminate; cbn [combine map snd]; auto; f_equal; auto).
  destruct (C91_file X (combine (map src l) rules) (pEnv st')) as (r & p & K1 & K2 & K3); auto.
  - apply Forall_forall. intros [a r] I. apply in_combine_l in I. apply in_map_iff in I as (i & <- & I). rewrite Forall_forall in HD. now apply HD.
  - now rewrite F2.
  - destruct l; [congruence|]. destruct rules; discriminate.
  - exists r, p. rewrite F1 in K1. rewrite F2 in K2. auto.
Qed.

(** ** Examples *)

Definition srcs (i : nat) : bytes := match i with O => str "a = [x, y]" | S O => str "x = 1 a = 2" | _ => [] end.
Definition noParser : parser := mkParser (newLexer []) zeroTok zeroTok [] [] [].
Definition exPool : pool := mkPool [] (fun i => match newParser X0 (newLexer (srcs i)) [] with Ok p => p | _ => noParser end).

Definition said (r : fileResult) : list msg := map dMsg (listed (snd r)).
Definition talk (l : list nat) : res (list (list msg)) := '(rs, _) <- callAll X0 20 l exPool;; Ok (map said rs).

(** Each source misses or repeats names of the other; which ones depends on the order. In the
    third call [x], which was defined in between, is not reported again, and [y] is. *)
Example C114_ex :
  talk [0%nat; 1%nat; 0%nat] = Ok [[MNotExist (str "x"); MNotExist (str "y")]; [MExisting (str "a") 1 5]; [MNotExist (str "x"); MNotExist (str "y"); MNotExist (str "y")]] /\
  talk [1%nat; 0%nat] = Ok [[]; [MExisting (str "a") 1 11; MNotExist (str "y")]].
Proof. split; vm_compute; reflexivity. Qed.

Example C114_hyps : fresh X0 srcs [0%nat; 1%nat] exPool /\ decodable (srcs 0) /\ NoDup [0%nat; 1%nat].
Proof.
  split; [|split; [now apply good_by_ascii|repeat constructor; cbn; intuition discriminate]].
  intros i I. exists []. cbn [exPool pParser]. destruct I as [<-|[<-|[]]]; vm_compute; reflexivity.
Qed.

Lemma talk_two : forall l m1 m2, talk l = Ok [m1; m2] -> exists a b st, callAll X0 20 l exPool = Ok ([a; b], st) /\ said a = m1 /\ said b = m2.
Proof.
  intros l m1 m2. unfold talk. generalize (callAll X0 20 l exPool). intros [[rs st]| | |] K; try discriminate K. cbn [rbind] in K. destruct rs as [|a [|b [|c rs]]]; try discriminate K. cbn [map] in K. injection K as K3 K4. exists a, b, st. auto.
Qed.

(** The order of the calls matters: what one source says depends on it. *)
Theorem C114_order_refuted : exists src st i j a b c d st1 st2, fresh X0 src [i; j] st /\ callAll X0 20 [i; j] st = Ok ([a; b], st1) /\ callAll X0 20 [j; i] st = Ok ([c; d], st2) /\ a <> d.
Proof.
  assert (K1 : talk [0%nat; 1%nat] = Ok [[MNotExist (str "x"); MNotExist (str "y")]; [MExisting (str "a") 1 5]]) by (vm_compute; reflexivity). destruct C114_ex as [_ K2].
  destruct (talk_two _ _ _ K1) as (a & b & st1 & A1 & A2 & _). destruct (talk_two _ _ _ K2) as (c & d & st2 & C1 & _ & C3).
  exists srcs, exPool, 0%nat, 1%nat, a, b, c, d, st1, st2. split; [apply C114_hyps|]. split; [exact A1|]. split; [exact C1|]. intros E. rewrite E, C3 in A2. discriminate A2.
Qed.

(** Two sources that are accepted in turn: the hypotheses of [C114_file]. *)
Definition srcs2 (i : nat) : bytes := match i with O => str "x = 1" | _ => str "a = [x]" end.
Definition exPool2 : pool := mkPool [] (fun i => match newParser X0 (newLexer (srcs2 i)) [] with Ok p => p | _ => noParser end).
Definition rulesOf (r : fileResult) : list node := match fst r with Some (NCDDL _ l) => l | _ => [] end.
Definition rules2 : list (list node) := Eval vm_compute in match callAll X0 20 [0%nat; 1%nat] exPool2 with Ok (rs, _) => map rulesOf rs | _ => [] end.

Example C114_file_ex : match callAll X0 20 [0%nat; 1%nat] exPool2 with Ok (rs, st) => rs = map accepted rules2 /\ map fst (pEnv st) = [str "x"; str "a"] | _ => False end /\ glued [] rules2 /\ length rules2 = 2%nat /\
  Props_Blocks.lines (map srcs2 [0%nat; 1%nat]) = str "x = 1
a = [x]".
Proof.
  split; [vm_compute; split; reflexivity|]. split; [|split; reflexivity]. cbn. repeat split; discriminate.
Qed.
