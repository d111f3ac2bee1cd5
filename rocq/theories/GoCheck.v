(** A check that implies [GoOk] (GoSpec.v), for the examples: for files without variables,
    imports and calls. *)
From Coq Require Import String Relations.
From Verif Require Import Base Codegen GoSpec EnvProofs.
Open Scope string_scope.
Open Scope list_scope.
Open Scope Z_scope.

Definition inB (n : bytes) (l : list bytes) : bool := existsb (beq n) l.
Fixpoint nodupB (l : list bytes) : bool := match l with [] => true | x :: r => negb (inB x r) && nodupB r end.

Lemma inB_iff : forall n l, inB n l = true <-> In n l.
Proof.
  intros n l. unfold inB. rewrite existsb_exists. split.
  - intros (x & H & E). apply beq_iff in E. now subst.
  - intros H. exists n. split; auto. now apply beq_iff.
Qed.
Lemma nodupB_sound : forall l, nodupB l = true -> NoDup l.
Proof.
  induction l as [|x l IH]; intros H; [constructor|]. cbn [nodupB] in H. apply andb_prop in H as [H1 H2]. constructor; auto.
  intros K. apply inB_iff in K. rewrite K in H1. discriminate H1.
Qed.

Fixpoint typeOkB (I : bytes -> bool) (T : list bytes) (e : gexpr) : bool :=
  match e with
  | GIdent n => inB n T
  | GBasic _ => false
  | GSlice e => typeOkB I T e
  | GStruct fs =>
      nodupB (fieldNames fs) &&
      (fix all (fs : list gfield) : bool :=
         match fs with
         | [] => true
         | (ns, e, _) :: fs => forallb I ns && match ns, e with [], GIdent _ => true | [], _ => false | _, _ => true end && typeOkB I T e && all fs
         end) fs
  end.

Fixpoint index (n : bytes) (l : list bytes) : nat := match l with [] => 0 | x :: r => if beq n x then 0 else S (index n r) end.

Definition declOkB (I : bytes -> bool) (ds : list gdecl) (d : gdecl) : bool :=
  let L := concat (map declared ds) in
  match d with
  | GVar _ _ _ | GImport _ => false
  | GType _ n e =>
      typeOkB I (L ++ universeTypes) e && forallb (fun m => (index n L <? index m L)%nat) (inside e) && negb (inB n interfaces) &&
      match e with GIdent m => negb (inB m interfaces) | GStruct fs => negb (inB (str "Valid") (fieldNames fs)) | _ => true end
  | GMethod _ r t cs => I r && inB t L && match cs with [] => true | _ => false end
  end.

Definition goOkB (I : bytes -> bool) (pkg : bytes) (ds : list gdecl) : bool :=
  I pkg && negb (beq pkg (str "_")) && forallb I (concat (map declared ds)) && nodupB (concat (map declared ds)) && forallb (declOkB I ds) ds.

Lemma typeOkB_sound : forall I L (T : bytes -> Prop), (forall n, In n L -> T n) -> forall e, typeOkB I L e = true -> typeOk (fun w => I w = true) T e.
Proof.
  intros I L T HT. fix IH 1. intros e H. destruct e as [n|v|e|fs]; cbn [typeOkB typeOk] in *.
  - apply HT. now apply inB_iff.
  - discriminate H.
  - now apply IH.
  - apply andb_prop in H as [H1 H2]. split; [now apply nodupB_sound|]. clear H1. revert fs H2. fix IHf 1. intros fs H. destruct fs as [|[[ns e] tag] fs]; auto.
    apply andb_prop in H as [H H4]. apply andb_prop in H as [H H3]. apply andb_prop in H as [H1 H2]. split; [|split; [|split]].
    + apply Forall_forall. rewrite forallb_forall in H1. exact H1.
    + intros ->. destruct e; try discriminate H2. eauto.
    + apply IH. exact H3.
    + apply IHf. exact H4.
Qed.

Lemma goOkB_sound : forall I twice pkg ds, goOkB I pkg ds = true -> GoOk (fun w => I w = true) twice pkg ds.
Proof.
  intros I twice pkg ds H. unfold goOkB in H. apply andb_prop in H as [H H5]. apply andb_prop in H as [H H4]. apply andb_prop in H as [H H3].
  apply andb_prop in H as [H1 H2]. rewrite forallb_forall in H5. apply nodupB_sound in H4.
  assert (HT : forall doc n e, In (GType doc n e) ds -> typeOkB I (concat (map declared ds) ++ universeTypes) e = true /\
    (forall m, In m (inside e) -> (index n (concat (map declared ds)) < index m (concat (map declared ds)))%nat) /\ ~ In n interfaces /\
    match e with GIdent m => negb (inB m interfaces) | GStruct fs => negb (inB (str "Valid") (fieldNames fs)) | _ => true end = true).
  { intros doc n e HI. apply H5 in HI. cbn [declOkB] in HI. apply andb_prop in HI as [HI K4]. apply andb_prop in HI as [HI K3]. apply andb_prop in HI as [K1 K2].
    split; auto. split; [|split; auto].
    - intros m Hm. rewrite forallb_forall in K2. apply Nat.ltb_lt. now apply K2.
    - intros K. apply inB_iff in K. rewrite K in K3. discriminate K3. }
  assert (HM : forall doc r t cs, In (GMethod doc r t cs) ds -> I r = true /\ In t (concat (map declared ds)) /\ cs = []).
  { intros doc r t cs HI. apply H5 in HI. cbn [declOkB] in HI. apply andb_prop in HI as [HI K3]. apply andb_prop in HI as [K1 K2].
    split; auto. split; [now apply inB_iff|]. destruct cs; auto; discriminate K3. }
  assert (HL : forall n, In n (concat (map declared ds)) -> isTypeIn ds n).
  { intros n Hn. apply in_concat in Hn as (x & Hx & Hn). apply in_map_iff in Hx as (d & <- & Hd). pose proof (H5 _ Hd) as K.
    destruct d as [doc m e|doc m e|doc r t cs|l]; cbn [declared] in Hn; try destruct Hn; try contradiction; [discriminate K|]. subst. exists doc, e. exact Hd. }
  assert (HIf : forall n, Interface ds n -> In n interfaces).
  { intros n Hn. induction Hn as [n Hn|doc n m HI Hn IH]; auto. destruct (HT _ _ _ HI) as (_ & _ & _ & K). apply inB_iff in IH. rewrite IH in K. discriminate K. }
  constructor.
  - split; auto. intros ->. discriminate H2.
  - apply Forall_forall. rewrite forallb_forall in H3. exact H3.
  - exact H4.
  - intros doc n e HI. apply H5 in HI. discriminate HI.
  - intros doc n e HI. destruct (HT _ _ _ HI) as (K & _). eapply typeOkB_sound; [|exact K]. intros m Hm. apply in_app_or in Hm as [Hm|Hm]; [left; now apply HL|now right].
  - intros n Hn. enough (G : forall a b, clos_trans bytes (contains ds) a b -> (index a (concat (map declared ds)) < index b (concat (map declared ds)))%nat) by (apply G in Hn; lia).
    intros a b Hab. induction Hab as [a b (doc & e & HI & Hb)|a b c _ IH1 _ IH2]; [|lia]. destruct (HT _ _ _ HI) as (_ & K & _). auto.
  - intros doc r t cs HI. destruct (HM _ _ _ _ HI) as (K1 & K2 & K3). split; auto. split; [now apply HL|]. intros K. apply HIf in K.
    destruct (HL _ K2) as (doc' & e & HI'). destruct (HT _ _ _ HI') as (_ & _ & K4 & _). contradiction.
  - intros doc r t cs fs _ HU. remember (GStruct fs) as e eqn:Ee. induction HU as [doc' n e HI N|doc' n m e HI HU IH]; auto. subst e.
    destruct (HT _ _ _ HI) as (_ & _ & _ & K). intros Hin. apply inB_iff in Hin. rewrite Hin in K. discriminate K.
  - intros doc r t cs c HI Hc. destruct (HM _ _ _ _ HI) as (_ & _ & ->). destruct Hc.
  - intros l p HI. apply H5 in HI. discriminate HI.
  - intros l HI. apply H5 in HI. discriminate HI.
Qed.
