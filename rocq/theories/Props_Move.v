(** Property C103: blank lines put before a source move every position by as much. *)
From Coq Require Import String.
From Verif Require Import Base Utf8 Token Strconv Ext Lexer LexSpec LexSpec2 LexSpec3 LexerProofs LexOne LexSeq LexWords Ast Env Diag Parser Doc ParseTwin ParseLayout ParseMove
  Props_Lexer Props_LexFull Props_Parser Props_Layout.
Open Scope string_scope.
Open Scope list_scope.
Open Scope Z_scope.

(** ** Specification *)

(** Whole lines of blanks. *)
Definition blankLines (g : bytes) : Prop := allBlank g /\ (g = [] \/ exists h, g = h ++ [10]).

(** The second outcome is the first one moved down by the lines of [g]: every position that was
    set is further by the bytes and lines of [g] and keeps its column, as do the lines
    and columns in messages. *)
Definition movedBy (g : bytes) (x y : res (fileResult * parser)) : Prop :=
  let n := Z.of_nat (length g) in
  let k := newlines g in
  match x, y with
  | Ok ((t, ds), p), Ok ((t', ds'), p') =>
    t' = option_map (move n k) t /\ ds' = option_map (map (mvD n k)) ds /\ env p' = map (mvDef n k) (env p)
  | Panic, Panic => True
  | _, _ => False
  end.

(** ** Positions *)

Lemma since_app : forall u v n, sinceNewline (u ++ v) n = sinceNewline v (sinceNewline u n).
Proof. induction u as [|c u IH]; intros v n; cbn [app sinceNewline]; auto. Qed.

Lemma lines_since : forall g, blankLines g -> sinceNewline g 0 = 0.
Proof. intros g [_ [->|(h & ->)]]; [reflexivity|]. rewrite since_app. reflexivity. Qed.

Lemma posAt_move : forall g s m, sinceNewline g 0 = 0 -> posAt (g ++ s) (length g + m) = mv (Z.of_nat (length g)) (newlines g) (posAt s m).
Proof.
  intros g s m B. unfold posAt, mv, mvLine. cbn [pFile pOffset pLine pColumn]. rewrite firstn_app_2, newlines_app, since_app, B.
  pose proof (newlines_pos (firstn m s)). destruct (Z.leb_spec (1 + newlines (firstn m s)) 0); [lia|]. f_equal; lia.
Qed.

Lemma peel : forall h u g w, h ++ u = g ++ w -> allBlank h -> allBlank g -> (w = [] \/ ~ blank (hd 0 w)) -> exists g1, u = g1 ++ w /\ allBlank g1.
Proof.
  induction h as [|c h IH]; intros u g w E Bh Bg N; [exists g; auto|]. inversion Bh; subst. destruct g as [|c' g].
  - cbn [app] in E. destruct N as [->|N]; [discriminate E|]. rewrite <- E in N. cbn [app hd] in N. contradiction.
  - cbn [app] in E. injection E as <- E. inversion Bg; subst. eapply IH; eauto.
Qed.

Lemma move_scans : forall X g s, sinceNewline g 0 = 0 -> forall n l l' k k' h, St s l k -> St (g ++ s) l' k' -> skipn k' (g ++ s) = h ++ skipn k s -> allBlank h ->
  (k' + length h = length g + k)%nat -> (errors l = [] <-> errors l' = []) ->
  relRes (fun x y => fst y = map (mvTok (Z.of_nat (length g)) (newlines g)) (fst x) /\ (errors (snd x) = [] <-> errors (snd y) = [])) (scans X n l) (scans X n l').
Proof.
  intros X g s B. induction n as [|n IH]; intros l l' k k' h HS HS' E Bh EK HE; [split; auto|]. cbn [scans].
  destruct (scan_full_err X s l k HS) as [[SC N]|(g1 & tk & text & lit & rest & l1 & N1 & N2 & N3 & SC & S1 & N4 & ER & U)];
    destruct (scan_full_err X (g ++ s) l' k' HS') as [[SC' N']|(g1' & tk' & text' & lit' & rest' & l1' & N1' & N2' & N3' & SC' & S1' & N4' & ER' & U')]; rewrite SC, SC'; cbn [rbind].
  - exact I.
  - exfalso. rewrite E in N1'. destruct (peel _ _ _ _ N1' Bh N2' (lexed_nonblank _ _ _ _ _ N3')) as (g2 & E2 & B2). exact (N _ _ _ _ _ E2 B2 N3').
  - exfalso. apply (N' (h ++ g1) tk text lit rest); auto; [rewrite E, N1; now rewrite app_assoc|]. now apply Forall_app.
  - destruct (U' (h ++ g1) tk text lit rest) as (EG & <- & <- & <- & <-); auto; [rewrite E, N1; now rewrite app_assoc|now apply Forall_app|].
    subst g1'. rewrite app_length in *. assert (EP : (k' + (length h + length g1) = length g + (k + length g1))%nat) by lia.
    rewrite EP in *. rewrite (posAt_move g s _ B).
    assert (H := IH l1 l1' (k + length g1 + length text)%nat (length g + (k + length g1) + length text)%nat [] S1 S1').
    assert (E' : skipn (length g + (k + length g1) + length text) (g ++ s) = [] ++ skipn (k + length g1 + length text) s).
    { cbn [app]. replace (length g + (k + length g1) + length text)%nat with (length g + (k + length g1 + length text))%nat by lia.
      rewrite skipn_app. replace (length g + (k + length g1 + length text) - length g)%nat with (k + length g1 + length text)%nat by lia.
      rewrite skipn_all2 by lia. reflexivity. }
    specialize (H E' ltac:(constructor) ltac:(cbn [length]; lia)).
    assert (HE1 : errors l1 = [] <-> errors l1' = []) by (destruct ER as [[R1 ->]|[R1 R2]], ER' as [[R1' ->]|[R1' R2']]; auto; tauto).
    specialize (H HE1). destruct (scans X n l1) as [[us m]| | |], (scans X n l1') as [[us' m']| | |]; cbn [rbind relRes fst snd] in *; auto.
    destruct H as [H1 H2]. split; auto. cbn [map]. rewrite H1. reflexivity.
Qed.

(** C103. Blank lines before a source move everything that is made of it, and change nothing else. *)
Theorem C103_moved : forall X g s e, decodable s -> blankLines g ->
  movedBy g (parseSource X (parseFuel s) s e) (parseSource X (parseFuel (g ++ s)) (g ++ s) (map (mvDef (Z.of_nat (length g)) (newlines g)) e)).
Proof.
  intros X g s e D B. set (k := newlines g). set (m := Z.of_nat (length g)). assert (D' : decodable (g ++ s)) by (apply good_app; auto; apply good_blank, B).
  assert (H : forall n, relRes (fun x y => fst y = map (mvTok m k) (fst x) /\ (errors (snd x) = [] <-> errors (snd y) = [])) (scans X n (newLexer s)) (scans X n (newLexer (g ++ s)))).
  { intros n. apply (move_scans X g s (lines_since g B) n _ _ 0%nat 0%nat g); auto using newLexer_st; [apply B|].
    destruct (newLexer_at s D) as (_ & -> & _), (newLexer_at (g ++ s) D') as (_ & -> & _). tauto. }
  destruct (C14_terminates X s e D) as (r & N1 & N2 & HR), (C14_terminates X (g ++ s) (map (mvDef m k) e) D') as (r' & N1' & N2' & HR').
  rewrite (HR (parseFuel s)), (HR' (parseFuel (g ++ s))) by apply Nat.le_refl.
  assert (HM := parseSource_mov X m k (newlines_pos g) (Nat.max (parseFuel s) (parseFuel (g ++ s))) s (g ++ s) e).
  rewrite (HR (Nat.max _ _)), (HR' (Nat.max _ _)) in HM by (auto using Nat.le_max_l, Nat.le_max_r).
  assert (R : relRes (movOut m k) r r').
  { apply HM.
    - intros n. specialize (H n). destruct (scans X n (newLexer s)) as [[? ?]| | |], (scans X n (newLexer (g ++ s))) as [[? ?]| | |]; cbn [relRes] in *; auto. apply H.
    - intros t l t' l' E E'. specialize (H 2%nat). rewrite E, E' in H. apply H. }
  destruct r as [[[t ds] p]| | |], r' as [[[t' ds'] p']| | |]; cbn [relRes movedBy] in *; auto.
  destruct R as [R1 R2]. cbn [fst snd] in *. injection R1 as -> ->. auto.
Qed.

(** With an empty environment: each diagnostic is on the line further down, in the same column. *)
Theorem C103_diagnostics : forall X g s t ds p, decodable s -> blankLines g -> parseSource X (parseFuel s) s [] = Ok ((t, ds), p) ->
  exists t' ds' p', parseSource X (parseFuel (g ++ s)) (g ++ s) [] = Ok ((t', ds'), p') /\
    option_map (map (fun d => (pLine (dStart d), pColumn (dStart d)))) ds' =
    option_map (map (fun d => (if pLine (dStart d) <=? 0 then pLine (dStart d) else pLine (dStart d) + newlines g, pColumn (dStart d)))) ds.
Proof.
  intros X g s t ds p D B E. pose proof (C103_moved X g s [] D B) as H. rewrite E in H. cbn [map movedBy] in H.
  destruct (parseSource X (parseFuel (g ++ s)) (g ++ s) []) as [[[t' ds'] p']| | |]; try contradiction. destruct H as (-> & -> & _).
  do 3 eexists. split; [reflexivity|]. destruct ds as [ds|]; auto. cbn [option_map]. rewrite map_map. reflexivity.
Qed.

(** A rule defined twice: two blank lines before. *)
Definition dup : bytes := str "a=1" ++ [10] ++ str "a=2".
Definition two : bytes := [32; 10; 10].
Definition dupOut : res (fileResult * parser) := Eval vm_compute in parseSource X0 (parseFuel dup) dup [].
Definition movedOut : res (fileResult * parser) := Eval vm_compute in parseSource X0 (parseFuel (two ++ dup)) (two ++ dup) [].

Lemma dup_is : parseSource X0 (parseFuel dup) dup [] = dupOut.
Proof. vm_compute. reflexivity. Qed.

Lemma moved_is : parseSource X0 (parseFuel (two ++ dup)) (two ++ dup) [] = movedOut.
Proof. vm_compute. reflexivity. Qed.

Lemma two_lines : blankLines two.
Proof. split; [repeat (apply Forall_cons; [unfold blank; lia|]); apply Forall_nil|]. right. now exists [32; 10]. Qed.

Example C103_ex : decodable dup /\ blankLines two /\ exists t t' p p' d d',
  parseSource X0 (parseFuel dup) dup [] = Ok ((Some t, Some [d]), p) /\
  parseSource X0 (parseFuel (two ++ dup)) (two ++ dup) [] = Ok ((Some t', Some [d']), p') /\
  dMsg d = MExisting (str "a") 1 3 /\ dMsg d' = MExisting (str "a") 3 3 /\ pLine (dStart d) = 2 /\ pLine (dStart d') = 4.
Proof.
  split; [now apply good_by_ascii|]. split; [apply two_lines|]. do 6 eexists. rewrite dup_is, moved_is. repeat split; reflexivity.
Qed.

(** Blanks on the first line move its columns: the tree is not just moved by bytes. *)
Theorem C103_indent_refuted : exists g s, decodable s /\ allBlank g /\ ~ movedBy g (parseSource X0 (parseFuel s) s []) (parseSource X0 (parseFuel (g ++ s)) (g ++ s) []).
Proof.
  exists [32], (str "a=1"). split; [now apply good_by_ascii|]. split; [repeat (apply Forall_cons; [unfold blank; lia|]); apply Forall_nil|].
  intros H. vm_compute in H. destruct H as [H _]. discriminate H.
Qed.
