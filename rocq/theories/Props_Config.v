(** Property C77: which configurations [Config.Valid] accepts. *)
From Coq Require Import String.
From Verif Require Import Base Repl Cli Config LexWords Props_Main Props_Cli.
Open Scope string_scope.
Open Scope list_scope.
Open Scope Z_scope.

(** ** The directory a string names *)

(** Walking from a directory along the components of a path. *)
Inductive Steps : path -> list bytes -> path -> Prop :=
| st_done : forall p, Steps p [] p
| st_here : forall p q r, Steps p r q -> Steps p ([] :: r) q
| st_dot : forall p q r, Steps p r q -> Steps p (str "." :: r) q
| st_up : forall p d q r, Steps p r q -> Steps (p ++ [d]) (str ".." :: r) q
| st_root : forall q r, Steps [] r q -> Steps [] (str ".." :: r) q
| st_down : forall p d q r, d <> [] -> d <> str "." -> d <> str ".." -> Steps (p ++ [d]) r q -> Steps p (d :: r) q.

(** The components of a string: what lies between its slashes. *)
Inductive Components : bytes -> list bytes -> Prop :=
| cp_last : forall s, ~ In 47 s -> Components s [s]
| cp_cons : forall d s r, ~ In 47 d -> Components s r -> Components (d ++ 47 :: s) (d :: r).

(** The path of a string: from the root if it begins with a slash, else from [cwd]. *)
Definition Names (cwd : path) (s : bytes) (p : path) : Prop :=
  s <> [] /\ exists cs, Components s cs /\ Steps (if hd 0 s =? 47 then [] else cwd) cs p.

(** A directory one may look at: no file is on the way and the system does not refuse. *)
Definition Directory (O : OsExt) (f : fs) (p : path) : Prop :=
  look f p = Some EDir /\ oStat O p = false /\ forall a c r t, p = a ++ c :: r -> look f a <> Some (EFile t).

Definition LocalDir (O : OsExt) (f : fs) (cwd : path) (s : bytes) : Prop := exists p, Names cwd s p /\ Directory O f p.

(** ** Proofs *)

Lemma cut_at : forall (c : Z) (s : bytes), ~ In c s \/ exists a b, s = a ++ c :: b /\ ~ In c a.
Proof.
  intros c. induction s as [|x s IH]; [left; intros []|]. destruct (Z.eq_dec x c) as [->|N].
  - right. exists [], s. split; auto.
  - destruct IH as [IH|(a & b & -> & IH)].
    + left. intros [K|K]; auto.
    + right. exists (x :: a), b. split; auto. intros [K|K]; auto.
Qed.

Lemma components_split : forall s cs, Components s cs <-> split 47 s = cs.
Proof.
  intros s cs. split.
  - induction 1 as [s N|d s r N H IH]; [now apply Props_Cli.split_none|]. rewrite split_cons by auto. now rewrite IH.
  - revert cs. remember (length s) as n eqn:EN. assert (L : (length s <= n)%nat) by lia. clear EN. revert s L.
    induction n as [|n IH]; intros s L cs <-.
    + destruct s; [|simpl in L; lia]. apply (cp_last []). auto.
    + destruct (cut_at 47 s) as [N|(a & b & -> & N)].
      * rewrite Props_Cli.split_none by auto. now constructor.
      * rewrite split_cons by auto. constructor; auto. apply IH; auto. rewrite app_length in L. simpl in L. lia.
Qed.

Definition step (p : path) (d : bytes) : path :=
  if beq d [] || beq d (str ".") then p else if beq d (str "..") then removelast p else p ++ [d].

Lemma steps_fold : forall cs p q, Steps p cs q <-> fold_left step cs p = q.
Proof.
  intros cs p q. split.
  - induction 1 as [p|p q r H IH|p q r H IH|p d q r H IH|q r H IH|p d q r N1 N2 N3 H IH]; cbn [fold_left]; auto.
    + unfold step at 2. cbn. now rewrite removelast_last.
    + unfold step at 2. destruct (beq_eq d []) as [E1 _], (beq_eq d (str ".")) as [E2 _], (beq_eq d (str "..")) as [E3 _].
      destruct (beq d []); [exfalso; auto|]. destruct (beq d (str ".")); [exfalso; auto|]. destruct (beq d (str "..")); [exfalso; auto|]. exact IH.
  - revert p. induction cs as [|d r IH]; intros p H; cbn [fold_left] in H; [subst; constructor|]. unfold step at 2 in H.
    destruct (beq_eq d []) as [E1 _], (beq_eq d (str ".")) as [E2 _], (beq_eq d (str "..")) as [E3 _].
    destruct (beq d []) eqn:B1; cbn [orb] in H; [rewrite E1 by auto; apply st_here; auto|].
    destruct (beq d (str ".")) eqn:B2; [rewrite E2 by auto; apply st_dot; auto|].
    destruct (beq d (str "..")) eqn:B3.
    + rewrite E3 by auto. destruct p as [|x p _] using rev_ind; [apply st_root; auto|]. rewrite removelast_last in H. apply st_up. auto.
    + apply st_down; auto; intros ->; cbn in *; discriminate.
Qed.

Lemma names_iff : forall cwd s p, Names cwd s p <-> pathOf cwd s = Some p.
Proof.
  intros cwd s p. unfold Names, pathOf. destruct s as [|c s]; [split; [intros [K _]; congruence|discriminate]|]. cbn [hd]. split.
  - intros (_ & cs & HC & HS). apply components_split in HC. apply steps_fold in HS. unfold step in HS. rewrite HC. apply (f_equal Some) in HS. exact HS.
  - intros H. split; [discriminate|]. exists (split 47 (c :: s)). split; [now apply components_split|]. apply steps_fold. injection H as H. exact H.
Qed.

Lemma blocked_iff : forall f p, blocked f p = false <-> forall a c r t, p = a ++ c :: r -> look f a <> Some (EFile t).
Proof.
  intros f p. unfold blocked.
  assert (K : forall rest pre, blockedAt f pre rest = false <-> forall a c r t, rest = a ++ c :: r -> look f (pre ++ a) <> Some (EFile t)).
  { induction rest as [|c rest IH]; intros pre; cbn [blockedAt].
    - split; auto. intros _ a c r t E. destruct a; discriminate.
    - split.
      + intros H a c' r t E. destruct a as [|x a]; injection E as -> ->.
        * rewrite app_nil_r. intros K. now rewrite K in H.
        * assert (B : blockedAt f (pre ++ [x]) (a ++ c' :: r) = false) by (destruct (look f pre) as [[t'|]|]; [discriminate|auto|auto]).
          rewrite IH in B. specialize (B a c' r t eq_refl). now rewrite <- app_assoc in B.
      + intros H. destruct (look f pre) as [[t|]|] eqn:E; [exfalso; apply (H [] c rest t eq_refl); now rewrite app_nil_r| |];
          apply IH; intros a c' r t' ->; specialize (H (c :: a) c' r t' eq_refl); now rewrite <- app_assoc. }
  apply K.
Qed.

Lemma local_iff : forall O f cwd s, localValid O f cwd s = None <-> LocalDir O f cwd s.
Proof.
  intros O f cwd s. unfold localValid, stat, LocalDir. split.
  - destruct (pathOf cwd s) as [p|] eqn:EP; [|discriminate]. intros H. exists p. split; [now apply names_iff|]. unfold statP in H.
    destruct (oStat O p) eqn:E1; [discriminate|]. destruct (blocked f p) eqn:E2; [discriminate|]. cbn [orb] in H.
    destruct (look f p) as [[t|]|] eqn:E3; [destruct (dirOnly s); discriminate| |discriminate]. split; auto. split; auto. now apply blocked_iff.
  - intros (p & HN & HL & HO & HB). apply names_iff in HN. apply blocked_iff in HB. rewrite HN. unfold statP. now rewrite HO, HB, HL.
Qed.

(** ** C77 *)

(** A plugin that is there and whose local path is a directory. *)
Definition PluginValid (O : OsExt) (f : fs) (cwd : path) (p : option plugin) : Prop :=
  exists q, p = Some q /\ LocalDir O f cwd (plPath q).

(** Valid accepts exactly the configurations all of whose plugins are such. *)
Theorem C77_accepts : forall O f cwd l, configValid O f cwd l = Ok None <-> Forall (PluginValid O f cwd) l.
Proof.
  intros O f cwd l. induction l as [|p l IH]; cbn [configValid]; [split; auto|]. split.
  - destruct p as [q|]; [|discriminate]. cbn [pluginValid rbind]. destruct (localValid O f cwd (plPath q)) eqn:E; [discriminate|].
    intros H. constructor; [|now apply IH]. exists q. split; auto. now apply local_iff.
  - intros H. inversion H as [|? ? (q & -> & HQ) HL]; subst. cbn [pluginValid rbind]. apply local_iff in HQ. rewrite HQ. now apply IH.
Qed.

(** Otherwise the first plugin that is not decides: a missing one (null in the file) crashes
    the program, any other is reported - with os.Stat's error, or the text of config.go:34 when
    there is something else than a directory. *)
Theorem C77_refuses : forall O f cwd l p r, Forall (PluginValid O f cwd) l -> ~ PluginValid O f cwd p ->
  match p with
  | None => configValid O f cwd (l ++ p :: r) = Panic
  | Some q => exists e, configValid O f cwd (l ++ p :: r) = Ok (Some e) /\
      (e = PNotDir (str "plugin path " ++ plPath q ++ str " not found") <-> stat O f cwd (plPath q) = SFile) /\
      (e = PStat (plPath q) <-> stat O f cwd (plPath q) <> SFile)
  end.
Proof.
  intros O f cwd l p r HL HP. induction HL as [|x l (q & -> & HQ) HL IH]; cbn [app configValid].
  - destruct p as [q|]; [|reflexivity]. cbn [pluginValid rbind]. destruct (localValid O f cwd (plPath q)) as [e|] eqn:E.
    + exists e. split; auto. unfold localValid in E. destruct (stat O f cwd (plPath q)); try discriminate; injection E as <-; (split; split; intros K; try discriminate; auto; exfalso; now apply K).
    + exfalso. apply HP. exists q. split; auto. now apply local_iff.
  - cbn [pluginValid rbind]. apply local_iff in HQ. rewrite HQ. exact IH.
Qed.

(** Hence it returns for every configuration without null plugins. *)
Theorem C77_total : forall O f cwd l, ~ In None l -> exists e, configValid O f cwd l = Ok e.
Proof.
  intros O f cwd l N. induction l as [|p l IH]; [eexists; reflexivity|]. destruct p as [q|]; [|exfalso; apply N; now left].
  cbn [configValid pluginValid rbind]. destruct (localValid O f cwd (plPath q)); [eexists; reflexivity|]. apply IH. intros K. apply N. now right.
Qed.

Definition pluginFs : fs := [([str "p"], EDir); ([str "p"; str "a"], EDir); ([str "p"; str "b"], EFile [])].
Definition at_ (s : string) : option plugin := Some (mkPlugin (str "x") [] (str s)).

Example C77_ex : map (configValid noRefusals pluginFs [str "p"])
    [[at_ "a"; at_ "../p/./a/"]; [at_ "a"; at_ "b"; None]; [at_ "c"]; [at_ ""]; [at_ "/p/b/x"]; [at_ "a"; None; at_ "b"]] =
  [Ok None; Ok (Some (PNotDir (str "plugin path b not found"))); Ok (Some (PStat (str "c"))); Ok (Some (PStat []));
   Ok (Some (PStat (str "/p/b/x"))); Panic].
Proof. vm_compute. reflexivity. Qed.
