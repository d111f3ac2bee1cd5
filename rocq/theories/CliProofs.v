(** Facts about the file system model. *)
From Coq Require Import String.
From Verif Require Import Base Token Ext Lexer Ast Env Diag Parser Repl Codegen Cli EnvProofs.
Open Scope string_scope.
Open Scope list_scope.
Open Scope Z_scope.

Lemma peq_iff : forall a b, peq a b = true <-> a = b.
Proof.
  induction a as [|x a IH]; destruct b as [|y b]; cbn [peq]; split; intros H; try discriminate; auto.
  - apply andb_true_iff in H as [H1 H2]. apply beq_iff in H1. apply IH in H2. congruence.
  - inversion H; subst. apply andb_true_iff. split; [apply beq_iff|apply IH]; auto.
Qed.

Lemma peq_refl : forall a, peq a a = true.
Proof. intros. now apply peq_iff. Qed.

Lemma peq_neq : forall a b, a <> b -> peq a b = false.
Proof. intros a b H. destruct (peq a b) eqn:E; auto. apply peq_iff in E. congruence. Qed.

Lemma look_root : forall f, look f [] = Some EDir.
Proof. destruct f; reflexivity. Qed.

Lemma look_same : forall f p e, p <> [] -> look (set f p e) p = Some e.
Proof. intros f p e H. destruct p; [congruence|]. unfold set. cbn [look]. now rewrite peq_refl. Qed.

Lemma look_other : forall f p e q, q <> p -> look (set f p e) q = look f q.
Proof.
  intros f p e q H. destruct q as [|c q]; [now rewrite !look_root|]. unfold set. cbn [look]. rewrite peq_neq by congruence. reflexivity.
Qed.

Lemma look_in : forall f q, q <> [] -> (look f q <> None <-> exists e, In (q, e) f).
Proof.
  intros f q N. induction f as [|[p e] f IH].
  - destruct q; [congruence|]. cbn. split; [congruence|intros [? []]].
  - destruct q as [|c q]; [congruence|]. cbn [look]. destruct (peq p (c :: q)) eqn:E.
    + apply peq_iff in E. subst p. split; [|discriminate]. intros _. exists e. simpl; auto.
    + rewrite IH. split; intros [e' H]; exists e'; simpl; auto. destruct H as [H|H]; auto. inversion H; subst.
      rewrite peq_refl in E. discriminate.
Qed.

(** Names of a directory. *)
Lemma blt_irrefl : forall a, blt a a = false.
Proof. induction a as [|x a IH]; cbn [blt]; auto. rewrite Z.ltb_irrefl, Z.eqb_refl, IH. reflexivity. Qed.

Lemma blt_trans : forall a b c, blt a b = true -> blt b c = true -> blt a c = true.
Proof.
  induction a as [|x a IH]; intros [|y b] [|z c]; cbn [blt]; auto; try discriminate.
  rewrite !orb_true_iff, !andb_true_iff, !Z.ltb_lt, !Z.eqb_eq. intros [H1|[H1 H1']] [H2|[H2 H2']]; try (left; lia).
  right. split; [lia|eauto].
Qed.

Lemma blt_total : forall a b, blt a b = true \/ a = b \/ blt b a = true.
Proof.
  induction a as [|x a IH]; intros [|y b]; cbn [blt]; auto.
  rewrite !orb_true_iff, !andb_true_iff, !Z.ltb_lt, !Z.eqb_eq.
  destruct (Z.lt_total x y) as [H|[->|H]]; auto.
  destruct (IH b) as [H|[->|H]]; auto.
Qed.

Inductive Ordered : list bytes -> Prop :=
| Ord_nil : Ordered []
| Ord_cons : forall n l, Forall (fun m => blt n m = true) l -> Ordered l -> Ordered (n :: l).

Lemma insertName_in : forall n l m, In m (insertName n l) <-> m = n \/ In m l.
Proof.
  intros n l m. induction l as [|x l IH]; cbn [insertName]; [simpl; intuition|].
  destruct (beq n x) eqn:E; [apply beq_iff in E; subst; simpl; intuition|].
  destruct (blt n x); simpl; [intuition|]. rewrite IH. intuition.
Qed.

Lemma insertName_ordered : forall n l, Ordered l -> Ordered (insertName n l).
Proof.
  intros n l H. induction H as [|x l HF HO IH]; cbn [insertName]; [repeat constructor|].
  destruct (beq n x) eqn:E; [constructor; auto|]. destruct (blt n x) eqn:L.
  - constructor; [|constructor; auto]. constructor; auto. eapply Forall_impl; [|exact HF]. intros m Hm. eapply blt_trans; eauto.
  - constructor; auto. apply Forall_forall. intros m Hm. apply insertName_in in Hm as [->|Hm].
    + destruct (blt_total n x) as [K|[K|K]]; auto; [congruence|]. subst. assert (beq x x = true) by now apply beq_iff. congruence.
    + rewrite Forall_forall in HF. auto.
Qed.

Lemma ordered_nodup : forall l, Ordered l -> NoDup l.
Proof.
  intros l H. induction H as [|n l HF HO IH]; constructor; auto. intros HI. rewrite Forall_forall in HF. apply HF in HI.
  rewrite blt_irrefl in HI. discriminate.
Qed.

Lemma childName_iff : forall p q n, childName p q = Some n <-> q = p ++ [n].
Proof.
  induction p as [|x p IH]; intros q n.
  - destruct q as [|a [|b q]]; cbn; split; intros H; inversion H; subst; auto.
  - destruct q as [|y q]; cbn [childName app]; [split; discriminate|].
    destruct (beq x y) eqn:E.
    + apply beq_iff in E. subst y. rewrite IH. split; [intros ->; auto|intros H; inversion H; auto].
    + split; [discriminate|]. intros H. inversion H; subst. assert (beq x x = true) by now apply beq_iff. congruence.
Qed.

Lemma names_ordered : forall f p, Ordered (names f p).
Proof.
  intros f p. unfold names. induction f as [|[q e] f IH]; cbn [fold_right fst]; [constructor|].
  destruct (childName p q); auto. now apply insertName_ordered.
Qed.

Lemma names_in : forall f p n, In n (names f p) <-> look f (p ++ [n]) <> None.
Proof.
  intros f p n. rewrite look_in by (destruct p; discriminate). unfold names.
  induction f as [|[q e] f IH]; cbn [fold_right fst]; [simpl; split; [intros []|intros [? []]]|].
  assert (K : (exists e0, In (p ++ [n], e0) ((q, e) :: f)) <-> q = p ++ [n] \/ exists e0, In (p ++ [n], e0) f).
  { split.
    - intros [e0 [H|H]]; [inversion H; auto|eauto].
    - intros [->|[e0 H]]; [exists e; simpl; auto|exists e0; simpl; auto]. }
  rewrite K, <- IH. destruct (childName p q) as [m|] eqn:E.
  - rewrite insertName_in. apply childName_iff in E. subst q. split; (intros [H|H]; [left|auto]).
    + congruence.
    + apply app_inj_tail in H. intuition congruence.
  - split; auto. intros [H|H]; auto. apply childName_iff in H. congruence.
Qed.

(** Names that end in ".cddl". *)
Lemma split_last : forall sep s, (~ In sep s /\ split sep s = [s]) \/
  (exists a x y l, split sep s = x :: y :: l /\ s = a ++ sep :: last (split sep s) []).
Proof.
  intros sep. induction s as [|c s IH]; cbn [split]; [left; split; auto|].
  destruct (Z.eqb_spec c sep) as [->|NE].
  - right. destruct IH as [[N E]|(a & x & y & l & E & ES)].
    + exists [], [], s, []. rewrite E. cbn [last app]. auto.
    + exists (sep :: a), [], x, (y :: l). rewrite E in *. split; [reflexivity|].
      rewrite ES at 1. reflexivity.
  - destruct IH as [[N E]|(a & x & y & l & E & ES)].
    + left. rewrite E. split; auto. intros [H|H]; congruence.
    + right. rewrite E in *. exists (c :: a), (c :: x), y, l. split; [reflexivity|]. rewrite ES at 1. reflexivity.
Qed.

Lemma split_app : forall sep a b, ~ In sep b -> last (split sep (a ++ sep :: b)) [] = b /\ exists x y l, split sep (a ++ sep :: b) = x :: y :: l.
Proof.
  intros sep a b N. induction a as [|c a (IH & x & y & l & E)]; cbn [app split].
  - rewrite Z.eqb_refl. destruct (split_last sep b) as [[_ E]|(a & x & y & l & E & ES)].
    + rewrite E. cbn. eauto 10.
    + exfalso. apply N. rewrite ES. apply in_or_app. right. simpl; auto.
  - rewrite E in *. destruct (c =? sep); (split; [exact IH|eauto]).
Qed.

Lemma ext_iff : forall n, beq (ext n) (str ".cddl") = true <-> exists stem, n = stem ++ str ".cddl".
Proof.
  intros n. rewrite beq_iff. unfold ext. split.
  - destruct (split_last 46 n) as [[N E]|(a & x & y & l & E & ES)].
    + rewrite E. discriminate.
    + rewrite E in *. intros H. exists a. rewrite <- H. exact ES.
  - intros [stem ->]. change (str ".cddl") with (46 :: str "cddl").
    destruct (split_app 46 stem (str "cddl")) as (H & x & y & l & E).
    { vm_compute. intros H. repeat (destruct H as [H|H]; [discriminate|]). exact H. }
    rewrite E in *. rewrite H. reflexivity.
Qed.

Lemma outName_stem : forall stem, outName (stem ++ str ".cddl") = stem ++ str ".go".
Proof.
  intros stem. unfold outName, trimCddl. rewrite app_length.
  replace (length stem + length (str ".cddl") - 5)%nat with (length stem) by (cbn; lia).
  assert (E : skipn (length stem) (stem ++ str ".cddl") = str ".cddl") by now rewrite skipn_app, skipn_all, Nat.sub_diag.
  assert (B : beq (str ".cddl") (str ".cddl") = true) by now apply beq_iff.
  rewrite E, B. rewrite firstn_app, firstn_all, Nat.sub_diag. cbn [firstn]. now rewrite app_nil_r.
Qed.

Lemma suffix_differs : forall a b, a ++ str ".go" <> b ++ str ".cddl".
Proof.
  intros a b H. apply (f_equal (fun l => last l 0)) in H. change (str ".go") with ([46; 103] ++ [111]) in H.
  change (str ".cddl") with ([46; 99; 100; 100] ++ [108]) in H. rewrite !app_assoc, !last_last in H. discriminate.
Qed.
