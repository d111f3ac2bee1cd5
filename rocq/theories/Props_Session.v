(** Property C91: a session of the REPL and the file of its lines. *)
From Coq Require Import String.
From Verif Require Import Base Utf8 Token Strconv Ext Lexer LexSpec LexSpec2 LexSeq Ast Env Diag Parser Doc Print Repl ParseSpec ParseTop ParseTwin ParseSource ParseLayout ParseConcat ParseTree EnvProofs ParseDup
  Props_Lexer Props_Parser Props_Layout Props_Concat Props_Blocks Props_Repl Props_Tree.
Open Scope string_scope.
Open Scope list_scope.
Open Scope Z_scope.

(** ** Specification *)

(** Lines accepted one after the other, each with the definitions of those before it, and the
    rules each of them has. *)
Inductive Chain (X : Ext) : environment -> list (bytes * list node) -> environment -> Prop :=
| ch_nil e : Chain X e [] e
| ch_cons e l r p ls e' : clean X l e (NCDDL zeroPos r) p -> Chain X (env p) ls e' -> Chain X e ((l, r) :: ls) e'.

(** No line follows one that ends with the comment of a rule, and no comment follows a
    comment. *)
Fixpoint glued (ra : list node) (ls : list (list node)) : Prop :=
  match ls with
  | [] => True
  | r :: ls => joinable ra r /\ glued (ra ++ r) ls
  end.

(** One of the first two tokens is one the lexer complains about. *)
Definition early (X : Ext) (s : bytes) : Prop := exists ts l, scans X 2 (newLexer s) = Ok (ts, l) /\ errors l <> [].

(** ** Proofs *)

Lemma alike_refl : forall ts, Alike ts ts.
Proof.
  assert (S : forall t, sameTok t t) by (intros t; split; reflexivity).
  induction ts as [|t [|u ts] IH]; constructor; auto. tauto.
Qed.

(** The same source with the same definitions in other places. *)
Lemma clean_bare : forall X s e e' r p, decodable s -> map bareDef e = map bareDef e' -> clean X s e (NCDDL zeroPos r) p ->
  exists r' p', clean X s e' (NCDDL zeroPos r') p' /\ map strip r' = map strip r /\ map bareDef (env p') = map bareDef (env p).
Proof.
  intros X s e e' r p D HE HC.
  assert (SO : sameOutcome (parseSource X (parseFuel s) s e) (parseSource X (parseFuel s) s e')).
  { apply C84_tokens; auto.
    - intros n. destruct (scans X n (newLexer s)) as [[? ?]| | |] eqn:E; auto using alike_refl.
      + apply (proj1 (scans_end X n s _ _ (newLexer_st s D)) E).
      + apply (proj2 (scans_end X n s _ _ (newLexer_st s D)) E).
    - intros t l t' l' E E'. rewrite E in E'. injection E' as <- <-. tauto. }
  unfold clean in HC. rewrite HC in SO. destruct (parseSource X (parseFuel s) s e') as [[[t ds] p']| | |] eqn:E; cbn [sameOutcome] in SO; try contradiction.
  destruct SO as (O1 & O2 & O3). destruct t as [t|]; [|discriminate O1]. destruct ds as [ds|]; [discriminate O2|].
  destruct (accepted_inv _ _ _ _ _ D E) as (_ & _ & _ & r' & _ & _ & -> & _). cbn [option_map strip] in O1. injection O1 as O1. exists r', p'. auto.
Qed.

Lemma strip_last : forall ra rb, map strip ra = map strip rb -> strip (last ra NNil) = strip (last rb NNil).
Proof.
  intros ra rb E. assert (K : forall l, strip (last l NNil) = last (map strip l) NNil) by (induction l as [|a [|b l] IH]; cbn [last map] in *; auto).
  now rewrite !K, E.
Qed.

Lemma glued_strip : forall ls ls' ra rb, map strip ra = map strip rb -> map (map strip) ls = map (map strip) ls' -> glued ra ls -> glued rb ls'.
Proof.
  induction ls as [|r ls IH]; intros [|r' ls'] ra rb E EL; try discriminate EL; cbn [glued]; auto. cbn [map] in EL. injection EL as ER EL. intros [J G]. split.
  - apply (strip_joinable _ _ _ ER). destruct J as [J1 J2]. pose proof (strip_last _ _ E) as L. unfold joinable.
    assert (K1 : commented (last rb NNil) = commented (last ra NNil)).
    { destruct (last ra NNil) as [| | | | | | | | | | | | | | | | | | | | | | | | | | | | | | | | | | | | ? ? ? [?|]|], (last rb NNil) as [| | | | | | | | | | | | | | | | | | | | | | | | | | | | | | | | | | | | ? ? ? [?|]|]; try discriminate L; reflexivity. }
    assert (K2 : isComment (last rb NNil) = isComment (last ra NNil)) by (destruct (last ra NNil), (last rb NNil); try discriminate L; reflexivity).
    now rewrite K1, K2.
  - eapply IH; [|exact EL|exact G]. now rewrite !map_app, E, ER.
Qed.

Lemma chain_bare : forall X ls e e1 e', Forall (fun l => decodable (fst l)) ls -> Chain X e ls e' -> map bareDef e = map bareDef e1 ->
  exists ls1 e1', Chain X e1 ls1 e1' /\ map fst ls1 = map fst ls /\ map (map strip) (map snd ls1) = map (map strip) (map snd ls) /\ map bareDef e1' = map bareDef e'.
Proof.
  intros X ls e e1 e' D H. revert e1 D. induction H as [e|e l r p ls e' HC H IH]; intros e1 D E.
  - exists [], e1. repeat split; auto. constructor.
  - inversion D as [|? ? D1 D2]; subst. destruct (clean_bare X l e e1 r p D1 E HC) as (r1 & p1 & C1 & R1 & E1).
    destruct (IH (env p1) D2 (eq_sym E1)) as (ls1 & e1' & K1 & K2 & K3 & K4). exists ((l, r1) :: ls1), e1'. cbn [map fst snd]. repeat split; auto; [|congruence|congruence].
    econstructor; eauto.
Qed.

Lemma chain_bound : forall X e ls e', Chain X e ls e' -> Forall (fun l => decodable (fst l)) ls -> forall w, bound e w -> bound e' w.
Proof.
  intros X e ls e' H. induction H as [|e l r p ls e' HC H IH]; auto. intros D w B. inversion D as [|? ? D1 D2]; subst. apply IH; auto.
  destruct (accepted_inv _ _ _ _ _ D1 HC) as (_ & _ & _ & _ & defs & _ & _ & _ & _ & _ & _ & -> & _). unfold bound in *. rewrite names_app. apply in_or_app. now left.
Qed.

Lemma lines_join : forall a l ls, lines (a :: l :: ls) = lines ((a ++ 10 :: l) :: ls).
Proof. intros a l [|b ls]; cbn [lines]; [reflexivity|]. now rewrite <- app_assoc. Qed.

Lemma chain_file : forall X n ls a ra pa e', length ls = n -> decodable a -> clean X a [] (NCDDL zeroPos ra) pa -> Forall (fun l => decodable (fst l)) ls ->
  Chain X (env pa) ls e' -> glued ra (map snd ls) -> (forall w, bound e' w -> hd 0 w <> 36) ->
  exists r p, clean X (lines (a :: map fst ls)) [] (NCDDL zeroPos r) p /\ map strip r = map strip (ra ++ concat (map snd ls)) /\ map bareDef (env p) = map bareDef e'.
Proof.
  intros X. induction n as [|n IH]; intros [|[l r] ls] a ra pa e' LN DA CA D H G NS; try discriminate LN.
  - inversion H; subst. exists ra, pa. cbn. rewrite app_nil_r. auto.
  - inversion H as [|? ? ? p ? ? HC HN]; subst. inversion D as [|? ? D1 D2]; subst. cbn [fst] in D1. destruct G as [J G].
    destruct (C86_concat X a l [] ra pa r p DA D1 ltac:(split; constructor) CA HC J) as (rb & pc & CC & R & B & _).
    { intros w Bw _. apply NS. now apply (chain_bound X _ _ _ HN D2). }
    destruct (chain_bare X ls (env p) (env pc) e' D2 HN (eq_sym B)) as (ls1 & e1 & K1 & K2 & K3 & K4).
    destruct (decodable_join a l DA D1) as [DJ _].
    assert (DL : Forall (fun l => decodable (fst l)) ls1).
    { rewrite Forall_forall in *. intros x Hx. apply (in_map fst) in Hx. rewrite K2 in Hx. apply in_map_iff in Hx. destruct Hx as (y & <- & Hy). now apply D2. }
    assert (NL : length ls1 = length ls) by (apply (f_equal (@length bytes)) in K2; now rewrite !map_length in K2).
    assert (GG : glued (ra ++ rb) (map snd ls1)) by (eapply glued_strip; [|symmetry; exact K3|exact G]; now rewrite !map_app, R).
    destruct (IH ls1 (a ++ 10 :: l) (ra ++ rb) pc e1) as (r2 & p2 & C2 & R2 & B2); auto.
    + cbn in LN. lia.
    + intros w Bw. apply NS. unfold bound in *. now rewrite <- (bare_names _ _ K4).
    + exists r2, p2. cbn [map fst snd]. rewrite lines_join, <- K2. split; auto. split; [|congruence].
      assert (KC : map strip (concat (map snd ls1)) = map strip (concat (map snd ls))) by (rewrite !concat_map; now rewrite K3).
      rewrite R2. cbn [concat]. now rewrite !map_app, R, KC, app_assoc.
Qed.

(** Lines accepted one after the other make a file that is accepted, with the same rules and
    the same definitions. *)
Theorem C91_file : forall X ls e', Forall (fun l => decodable (fst l)) ls -> Chain X [] ls e' -> glued [] (map snd ls) ->
  (forall w, bound e' w -> hd 0 w <> 36) -> ls <> [] ->
  exists r p, clean X (lines (map fst ls)) [] (NCDDL zeroPos r) p /\ map strip r = map strip (concat (map snd ls)) /\ map bareDef (env p) = map bareDef e'.
Proof.
  intros X [|[l r] ls] e' D H G0 NS N; [congruence|]. destruct G0 as [_ G]. inversion H as [|? ? ? p ? ? HC HN]; subst. inversion D as [|? ? D1 D2]; subst.
  apply (chain_file X (length ls) ls l r p e'); auto.
Qed.

Lemma turn_line : forall X R s line, ~ command (xTrimSpace R line) -> sVerbose s = false ->
  turn X R false s line = ('(root, ds, p) <- parseSource X (parseFuel line) line (sEnv s);; Ok (match ds with Some l => [OErrors l] | None => [] end ++ [], Some (mkSession (env p) false))).
Proof.
  intros X R [e v] line NC V. cbn [sVerbose sEnv] in *. subst v. unfold turn. cbn [sVerbose sEnv].
  repeat match goal with |- context [hasPrefix ?t (str ?c)] => destruct (hasPrefix t (str c)) eqn:?; [exfalso; apply NC; eapply hasPrefix_command; [|eassumption]; simpl; tauto|] end.
  cbn [rbind]. destruct (parseSource X (parseFuel line) line e) as [[[root ds] p]| | |]; reflexivity.
Qed.

Lemma silent_loop : forall X R e' ls e, Forall decodable ls -> Forall (fun l => ~ command (xTrimSpace R l)) ls -> Forall (fun l => ~ early X l) ls ->
  (replLoop X R false (mkSession e false) ls = Ok ([], CouldNotScan, mkSession e' false) <-> exists rs, length rs = length ls /\ Chain X e (combine ls rs) e').
Proof.
  intros X R e'. induction ls as [|l ls IH]; intros e D NC NE.
  - cbn. split.
    + intros H. injection H as ->. exists []. split; auto. constructor.
    + intros (rs & L & H). destruct rs; [|discriminate]. cbn in H. inversion H; subst. reflexivity.
  - inversion D as [|? ? D1 D2]; inversion NC as [|? ? NC1 NC2]; inversion NE as [|? ? NE1 NE2]; subst. cbn [replLoop].
    rewrite turn_line by auto. cbn [sEnv]. split.
    + destruct (parseSource X (parseFuel l) l e) as [[[root ds] p]| | |] eqn:EP; try discriminate. cbn [rbind].
      destruct (replLoop X R false (mkSession (env p) false) ls) as [[[o1 en] s2]| | |] eqn:EL; try discriminate. cbn [rbind].
      intros H. destruct ds as [ds|]; [discriminate|]. cbn [app] in H. injection H as -> -> ->.
      destruct root as [root|]; [|exfalso; apply NE1; exact (proj2 (C27_nil_only_if _ _ _ _ _ _ EP))].
      destruct (accepted_inv _ _ _ _ _ D1 EP) as (_ & _ & _ & r & _ & _ & -> & _).
      destruct (proj1 (IH (env p) D2 NC2 NE2) EL) as (rs & L & H). exists (r :: rs). split; [cbn; congruence|]. cbn [combine]. econstructor; eauto.
    + intros (rs & L & H). destruct rs as [|r rs]; [discriminate|]. cbn [combine] in H. inversion H as [|? ? ? p ? ? HC HN]; subst.
      unfold clean in HC. rewrite HC. cbn [rbind app].
      rewrite (proj2 (IH (env p) D2 NC2 NE2)); [reflexivity|]. exists rs. split; auto.
Qed.

(** A session says nothing exactly when its lines are accepted one after the other. *)
Theorem C91_silent : forall X R ls e', Forall decodable ls -> Forall (fun l => ~ command (xTrimSpace R l)) ls -> Forall (fun l => ~ early X l) ls ->
  (repl X R false ls = Ok ([], CouldNotScan, mkSession e' false) <-> exists rs, length rs = length ls /\ Chain X [] (combine ls rs) e').
Proof. intros X R ls e' D NC NE. apply silent_loop; auto. Qed.

(** ** Examples *)

Definition sampleLines : list bytes := [str "x = [* int]"; str "; of x"; str "y = { a: x }"].

Example C91_ex : exists rs e', Forall decodable sampleLines /\ Forall (fun l => ~ command (xTrimSpace R0 l)) sampleLines /\ Forall (fun l => ~ early X0 l) sampleLines /\
  Forall (fun l => decodable (fst l)) (combine sampleLines rs) /\ Chain X0 [] (combine sampleLines rs) e' /\ glued [] (map snd (combine sampleLines rs)) /\
  (forall w, bound e' w -> hd 0 w <> 36) /\ length rs = 3%nat /\ names e' = [str "x"; str "y"].
Proof.
  assert (D : Forall decodable sampleLines) by (repeat (apply Forall_cons; [now apply good_by_ascii|]); apply Forall_nil).
  eexists [_; _; _], _. split; [exact D|].
  split; [repeat (apply Forall_cons; [apply not_command; reflexivity|]); apply Forall_nil|].
  split; [repeat (apply Forall_cons; [intros (ts & l & H & N); vm_compute in H; injection H as _ <-; now apply N|]); apply Forall_nil|].
  split; [repeat (apply Forall_cons; [now apply good_by_ascii|]); apply Forall_nil|].
  split.
  { eapply ch_cons; [vm_compute; reflexivity|]. cbn [env]. eapply ch_cons; [vm_compute; reflexivity|]. cbn [env]. eapply ch_cons; [vm_compute; reflexivity|]. apply ch_nil. }
  cbn [env]. split; [cbn; repeat split; auto; discriminate|]. split; [|split; reflexivity].
  intros w [<-|[<-|[]]]; discriminate.
Qed.

(** The order of the lines matters to a session and not to a file: a name may be used before the
    line that defines it in a file only. *)
Theorem C91_forward_refuted : exists a b o e' t p, decodable a /\ decodable b /\ clean X0 (lines [a; b]) [] t p /\
  repl X0 R0 false [a; b] = Ok ([OErrors o], CouldNotScan, mkSession e' false) /\ length o = 1%nat /\ repl X0 R0 false [b; a] = Ok ([], CouldNotScan, mkSession (rev e') false).
Proof.
  exists (str "y = [* x]"), (str "x = int"). do 4 eexists. split; [now apply good_by_ascii|]. split; [now apply good_by_ascii|].
  split; [vm_compute; reflexivity|]. split; [vm_compute; reflexivity|]. split; [reflexivity|vm_compute; reflexivity].
Qed.

(** A line that is not CDDL at all, and of which the session says nothing. *)
Theorem C91_early_refuted : exists a b e', decodable a /\ decodable b /\ repl X0 R0 false [a; b] = Ok ([], CouldNotScan, mkSession e' false) /\
  ~ exists t p, clean X0 (lines [a; b]) [] t p.
Proof.
  exists (str "x = int"), (str "y ""abc"). eexists. split; [now apply good_by_ascii|]. split; [now apply good_by_ascii|].
  split; [vm_compute; reflexivity|].
  intros (t & p & H). assert (K : match parseSource X0 (parseFuel (lines [str "x = int"; str "y ""abc"])) (lines [str "x = int"; str "y ""abc"]) [] with Ok ((Some _, None), _) => true | _ => false end = false) by (vm_compute; reflexivity).
  unfold clean in H. rewrite H in K. discriminate K.
Qed.

(** A line that ends with a comment: in a file the name of the next rule is lost. *)
Theorem C91_comment_refuted : exists a b e', decodable a /\ decodable b /\ repl X0 R0 false [a; b] = Ok ([], CouldNotScan, mkSession e' false) /\
  ~ exists t p, clean X0 (lines [a; b]) [] t p.
Proof.
  exists (str "x = int ; first"), (str "y = x"). eexists. split; [now apply good_by_ascii|]. split; [now apply good_by_ascii|].
  split; [vm_compute; reflexivity|].
  intros (t & p & H). assert (K : match parseSource X0 (parseFuel (lines [str "x = int ; first"; str "y = x"])) (lines [str "x = int ; first"; str "y = x"]) [] with Ok ((Some _, None), _) => true | _ => false end = false) by (vm_compute; reflexivity).
  unfold clean in H. rewrite H in K. discriminate K.
Qed.
