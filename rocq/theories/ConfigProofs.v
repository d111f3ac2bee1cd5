(** The decoder of configurations follows the specification. *)
From Coq Require Import String.
From Verif Require Import Base Utf8 Lexer LexWords Cli Json JsonSpec JsonProofs JsonEnc ConfigSpec.
Open Scope string_scope.
Open Scope list_scope.
Open Scope Z_scope.

(** ** Names *)

Definition lower (n : bytes) : Prop := Forall (fun c => 97 <= c <= 122) n.

Lemma same_fold : forall n k, Same n k -> lower n -> foldKey k = n.
Proof.
  intros n k H. induction H as [|c n k H IH|c n k HC H IH|n k H IH|n k H IH]; intros L; auto; inversion L; subst; specialize (IH ltac:(assumption)).
  - cbn [foldKey]. unfold inRangeB. replace ((65 <=? c) && (c <=? 90)) with false by lia. replace (c =? 197) with false by lia. replace (c =? 226) with false by lia. now f_equal.
  - cbn [foldKey]. unfold inRangeB. replace ((65 <=? c - 32) && (c - 32 <=? 90)) with true by lia. replace (c - 32 =? 197) with false by lia. replace (c - 32 =? 226) with false by lia.
    f_equal; auto. lia.
  - cbn. now f_equal.
  - cbn. now f_equal.
Qed.

Lemma fold_same : forall len k n, (length k <= len)%nat -> lower n -> foldKey k = n -> Same n k.
Proof.
  induction len as [|len IH]; intros k n HL LN E; (destruct k as [|b r]; [subst; constructor|]); [simpl in HL; lia|]. simpl in HL.
  cbn [foldKey] in E.
  assert (O : (if inRangeB 65 90 b then b + 32 else b) :: foldKey r = n -> b <> 197 -> b <> 226 -> Same n (b :: r)).
  { intros <- N1 N2. inversion LN; subst. unfold inRangeB in *. destruct ((65 <=? b) && (b <=? 90)) eqn:EB.
    - replace b with (b + 32 - 32) at 2 by lia. apply same_upper; [lia|]. apply IH; auto. lia.
    - constructor. apply IH; auto. lia. }
  assert (O' : (b = 197 \/ b = 226) -> ~ (if inRangeB 65 90 b then b + 32 else b) :: foldKey r = n).
  { intros HB <-. inversion LN; subst. unfold inRangeB in *. destruct HB; subst; simpl in *; lia. }
  destruct (b =? 197) eqn:E1; [|destruct (b =? 226) eqn:E2; [|apply O; auto; lia]].
  - assert (b = 197) by lia. subst b. destruct r as [|c r1]; [now apply O' in E; auto|]. destruct (c =? 191) eqn:E3; [|now apply O' in E; auto].
    assert (c = 191) by lia. subst c n. inversion LN; subst. constructor. simpl in HL. apply IH; auto. lia.
  - assert (b = 226) by lia. subst b. destruct r as [|c [|c2 r1]]; [now apply O' in E; auto|now apply O' in E; auto|]. destruct ((c =? 132) && (c2 =? 170)) eqn:E3; [|now apply O' in E; auto].
    assert (c = 132 /\ c2 = 170) as [-> ->] by lia. subst n. inversion LN; subst. constructor. simpl in HL. apply IH; auto. lia.
Qed.

Definition lowerB (n : bytes) : bool := forallb (fun c => (97 <=? c) && (c <=? 122)) n.

Lemma lowerB_lower : forall n, lowerB n = true -> lower n.
Proof. intros n H. unfold lowerB in H. rewrite forallb_forall in H. apply Forall_forall. intros c HC. specialize (H c HC). lia. Qed.

Lemma keyIs_same : forall name k, lowerB (str name) = true -> (keyIs name k = true <-> Same (str name) k).
Proof.
  intros name k L. apply lowerB_lower in L. unfold keyIs. rewrite LexWords.beq_eq. split; intros H; [eapply fold_same; eauto|now apply same_fold].
Qed.

Lemma keyIs_other : forall a b k, keyIs a k = true -> beq (str a) (str b) = false -> keyIs b k = false.
Proof. intros a b k H N. unfold keyIs in *. apply LexWords.beq_eq in H. now rewrite H. Qed.

Definition mems (name : string) (m : list (bytes * json)) : list json := map snd (filter (fun kv => keyIs name (fst kv)) m).

Lemma mems_members : forall name m vs, lowerB (str name) = true -> (Members name m vs <-> vs = mems name m).
Proof.
  intros name m vs L. unfold mems. split.
  - intros H. induction H as [|k v m vs HS H IH|k v m vs HS H IH]; auto; cbn [filter fst].
    + apply keyIs_same in HS; auto. rewrite HS. cbn [map snd]. now f_equal.
    + destruct (keyIs name k) eqn:E; auto. apply keyIs_same in E; auto. contradiction.
  - intros ->. induction m as [|[k v] m IH]; [constructor|]. cbn [filter fst]. destruct (keyIs name k) eqn:E; cbn [map snd]; constructor; auto.
    + now apply keyIs_same.
    + intros HS. apply keyIs_same in HS; auto. congruence.
Qed.

Lemma ex_members : forall name m (P : list json -> Prop), lowerB (str name) = true -> ((exists vs, Members name m vs /\ P vs) <-> P (mems name m)).
Proof.
  intros name m P L. split; [intros (vs & HM & HP); apply mems_members in HM; subst; auto|]. intros HP. exists (mems name m). split; auto. now apply mems_members.
Qed.

(** ** String fields *)

Fixpoint texts (cur : bytes) (vs : list json) : option bytes :=
  match vs with
  | [] => Some cur
  | v :: r => match intoString cur v with Some s => texts s r | None => None end
  end.

Lemma texts_iff : forall vs cur s, texts cur vs = Some s <->
  Forall nullOrText vs /\ ((exists a b, vs = a ++ JStr s :: b /\ Forall (eq JNull) b) \/ (Forall (eq JNull) vs /\ s = cur)).
Proof.
  induction vs as [|v vs IH]; intros cur s; cbn [texts].
  - split; [intros E; inversion E; subst; split; [constructor|right; split; auto]|]. intros [_ [(a & b & E & _)|[_ ->]]]; auto. destruct a; discriminate.
  - split.
    + destruct (intoString cur v) as [s'|] eqn:E; [|discriminate]. intros H. apply IH in H as [HF HE].
      assert (NT : nullOrText v) by (destruct v; try discriminate E; [left; auto|right; eauto]). split; [now constructor|].
      destruct HE as [(a & b & -> & HB)|[HN ->]]; [left; exists (v :: a), b; auto|].
      destruct v; try discriminate E; inversion E; subst; [right; split; auto|left; exists [], vs; auto].
    + intros [HF HE]. inversion HF as [|? ? NT HF']; subst. destruct NT as [-> |(x & ->)]; cbn [intoString].
      * apply IH. split; auto. destruct HE as [(a & b & E & HB)|[HN ->]]; [|inversion HN; subst; auto]. destruct a as [|y a]; [discriminate|]. injection E as _ ->. left. eauto.
      * apply IH. split; auto. destruct HE as [(a & b & E & HB)|[HN ->]]; [|inversion HN; discriminate]. destruct a as [|y a]; injection E as E1 E2; subst; [right; auto|left; eauto].
Qed.

Lemma text_iff : forall name m s, lowerB (str name) = true -> (Text name m s <-> texts [] (mems name m) = Some s).
Proof. intros name m s L. unfold Text. rewrite ex_members by auto. unfold TextOf. now rewrite texts_iff. Qed.

(** ** Builds *)

Lemma mems_cons : forall name k v m, mems name ((k, v) :: m) = if keyIs name k then v :: mems name m else mems name m.
Proof. intros. unfold mems. cbn [filter fst]. now destruct (keyIs name k). Qed.

Lemma intoBuild_iff : forall m b b', intoBuild b m = Some b' <->
  texts (bPackage b) (mems "package" m) = Some (bPackage b') /\ texts (bSource b) (mems "src" m) = Some (bSource b') /\ texts (bOut b) (mems "output" m) = Some (bOut b').
Proof.
  induction m as [|[k v] m IH]; intros b b'; cbn [intoBuild].
  - change (mems "package" []) with (@nil json). change (mems "src" []) with (@nil json). change (mems "output" []) with (@nil json). cbn [texts]. destruct b as [x y z], b' as [x' y' z']. cbn. split; [intros E; inversion E; auto|intros (E1 & E2 & E3); congruence].
  - rewrite !mems_cons. destruct (keyIs "package" k) eqn:E1.
    { rewrite (keyIs_other _ "src" _ E1), (keyIs_other _ "output" _ E1) by reflexivity. cbn [texts]. destruct (intoString (bPackage b) v); [exact (IH _ _)|]. split; [discriminate|intros (K & _); discriminate]. }
    destruct (keyIs "src" k) eqn:E2.
    { rewrite (keyIs_other _ "output" _ E2) by reflexivity. cbn [texts]. destruct (intoString (bSource b) v); [exact (IH _ _)|]. split; [discriminate|intros (_ & K & _); discriminate]. }
    destruct (keyIs "output" k) eqn:E3; [|exact (IH _ _)]. cbn [texts]. destruct (intoString (bOut b) v); [exact (IH _ _)|]. split; [discriminate|intros (_ & _ & K); discriminate].
Qed.

Lemma buildPtr_iff : forall v o, intoBuildPtr v = Some o <-> BuildOf v o.
Proof.
  intros v o. split.
  - destruct v; cbn [intoBuildPtr]; try discriminate; [intros E; inversion E; constructor|]. destruct (intoBuild (mkBuild [] [] []) m) as [b|] eqn:EB; [|discriminate]. intros E. inversion E; subst.
    apply intoBuild_iff in EB as (E1 & E2 & E3). constructor; now apply text_iff.
  - intros H. inversion H as [|m b H1 H2 H3]; subst; auto. apply text_iff in H1, H2, H3; auto. cbn [intoBuildPtr].
    assert (E : intoBuild (mkBuild [] [] []) m = Some b) by (apply intoBuild_iff; auto). now rewrite E.
Qed.

Lemma builds_iff : forall l bs, intoBuilds l = Some bs <-> Forall2 BuildOf l bs.
Proof.
  induction l as [|v l IH]; intros bs; cbn [intoBuilds]; (split; [|intros H; inversion H as [|? o ? bs' H1 H2]; subst]).
  - intros E. inversion E. constructor.
  - auto.
  - intros E. destruct (intoBuildPtr v) as [o|] eqn:EO; [|discriminate]. destruct (intoBuilds l) as [bs'|] eqn:EL; [|discriminate]. inversion E; subst. constructor; [now apply buildPtr_iff|now apply IH].
  - apply buildPtr_iff in H1. apply IH in H2. now rewrite H1, H2.
Qed.

Fixpoint blds (cur : list (option build)) (vs : list json) : option (list (option build)) :=
  match vs with
  | [] => Some cur
  | JNull :: r => blds [] r
  | JArr l :: r => match intoBuilds l with Some bs => blds bs r | None => None end
  | _ => None
  end.

Lemma blds_snoc : forall vs cur v, blds cur (vs ++ [v]) = match blds cur vs with Some bs => blds bs [v] | None => None end.
Proof.
  induction vs as [|w vs IH]; intros cur v; cbn [app blds]; [reflexivity|]. destruct w; auto; try apply IH. destruct (intoBuilds l); auto. apply IH.
Qed.

Lemma blds_iff : forall vs bs, BuildsOf vs bs <-> blds [] vs = Some bs.
Proof.
  intros vs bs. split.
  - intros H. induction H as [|vs bs H IH|vs bs l bs' H IH HL]; auto; rewrite blds_snoc, IH; cbn [blds]; auto. apply builds_iff in HL. now rewrite HL.
  - revert bs. induction vs as [|v vs IH] using rev_ind; intros bs E; [inversion E; constructor|]. rewrite blds_snoc in E. destruct (blds [] vs) as [b0|]; [|discriminate].
    specialize (IH b0 eq_refl). destruct v; cbn [blds] in E; try discriminate; [inversion E; subst; econstructor; eauto|]. destruct (intoBuilds l) as [b1|] eqn:EL; [|discriminate]. inversion E; subst.
    econstructor; eauto. now apply builds_iff.
Qed.

Fixpoint sec (some : bool) (vs : list json) : bool :=
  match vs with
  | [] => false
  | JNull :: r => sec false r
  | JArr l :: r => some || sec (match l with [] => false | _ => true end) r
  | _ :: r => sec some r
  end.

Lemma second_sec : forall m some, second some m = sec some (mems "builds" m).
Proof.
  induction m as [|[k v] m IH]; intros some; [reflexivity|]. cbn [second]. rewrite mems_cons. destruct (keyIs "builds" k); [|apply IH]. cbn [sec]. destruct v; rewrite ?IH; reflexivity.
Qed.

Definition Ahead (vs : list json) : Prop := exists b l' c, vs = b ++ JArr l' :: c /\ ~ In JNull b.

Lemma refilled_cons : forall v vs, Refilled (v :: vs) <-> (exists l, v = JArr l /\ l <> [] /\ Ahead vs) \/ Refilled vs.
Proof.
  intros v vs. split.
  - intros (a & l & b & l' & c & E & NE & NB). destruct a as [|x a]; injection E as -> ->; [left; exists l; repeat split; auto; exists b, l', c; auto|right; exists a, l, b, l', c; auto].
  - intros [(l & -> & NE & b & l' & c & -> & NB)|(a & l & b & l' & c & -> & NE & NB)]; [exists [], l, b, l', c; auto|exists (v :: a), l, b, l', c; auto].
Qed.

Lemma ahead_cons : forall v vs, Ahead (v :: vs) <-> (exists l, v = JArr l) \/ (v <> JNull /\ Ahead vs).
Proof.
  intros v vs. split.
  - intros (b & l' & c & E & NB). destruct b as [|x b]; injection E as -> ->; [left; eauto|]. simpl in NB. right. split; [auto|exists b, l', c; auto].
  - intros [(l & ->)|(NV & b & l' & c & -> & NB)]; [exists [], l, vs; auto|exists (v :: b), l', c; split; auto; simpl; intuition].
Qed.

Lemma sec_iff : forall vs some, sec some vs = true <-> (some = true /\ Ahead vs) \/ Refilled vs.
Proof.
  induction vs as [|v vs IH]; intros some.
  - cbn. split; [discriminate|]. intros [(_ & b & l & c & E & _)|(a & l & b & l' & c & E & _)]; [destruct b|destruct a]; discriminate.
  - rewrite refilled_cons, ahead_cons. cbn [sec].
    assert (NA : forall w, w <> JNull -> (forall l, w <> JArr l) -> v = w -> sec some vs = true <-> some = true /\ ((exists l, v = JArr l) \/ v <> JNull /\ Ahead vs) \/ (exists l, v = JArr l /\ l <> [] /\ Ahead vs) \/ Refilled vs).
    { intros w N1 N2 ->. rewrite IH. split; [intuition|]. intros [[-> [(l & E)|[_ HA]]]|[(l & E & _)|HR]]; auto; exfalso; eapply N2; eauto. }
    destruct v as [|b|t|s|l|m]; try (eapply NA; [| |reflexivity]; [discriminate|intros; discriminate]).
    + rewrite IH. split; [intros [[K _]|K]; [discriminate|auto]|]. intros [(_ & [(l & E)|[K _]])|[(l & E & _)|HR]]; try discriminate; try congruence; auto.
    + rewrite orb_true_iff, IH. destruct l as [|x l].
      * split; [intros [-> |[[K _]|HR]]; [left; split; auto; left; eauto|discriminate|auto]|]. intros [[-> _]|[(l & E & NE & _)|HR]]; auto. injection E as <-. congruence.
      * split; [intros [-> |[[_ HA]|HR]]; [left; split; auto; left; eauto|right; left; exists (x :: l); repeat split; auto; discriminate|auto]|]. intros [[-> _]|[(l' & E & NE & HA)|HR]]; auto.
Qed.

Lemma second_iff : forall m, second false m = true <-> Refilled (mems "builds" m).
Proof. intros m. rewrite second_sec, sec_iff. split; [intros [[K _]|K]; [discriminate|auto]|auto]. Qed.

(** ** Plugins and options *)

Lemma fitsStr_iff : forall v, fitsStr v = true <-> nullOrText v.
Proof. intros v. split; [destruct v; try discriminate; intros _; [left; auto|right; eauto]|]. intros [-> |(s & ->)]; reflexivity. Qed.

Lemma forallb_mems : forall name (f : json -> bool) (P : json -> Prop) m, (forall v, f v = true <-> P v) ->
  (forallb f (mems name m) = true <-> Forall P (mems name m)).
Proof. intros name f P m HF. rewrite forallb_forall, Forall_forall. split; intros H v HV; apply HF; auto. Qed.

Lemma fitsOne_iff : forall name v, lowerB (str name) = true -> (fitsOne name v = true <-> OneText name v).
Proof.
  intros name v L. assert (G : forall m, forallb (fun kv => negb (keyIs name (fst kv)) || fitsStr (snd kv)) m = forallb fitsStr (mems name m)).
  { induction m as [|[k w] m IH]; [reflexivity|]. cbn [forallb fst snd]. rewrite mems_cons, IH. destruct (keyIs name k); reflexivity. }
  split.
  - destruct v; try discriminate; [left; auto|]. cbn [fitsOne]. rewrite G. intros H. apply (forallb_mems name fitsStr nullOrText) in H; [|apply fitsStr_iff].
    right. exists m, (mems name m). repeat split; auto. now apply mems_members.
  - intros [-> |(m & vs & -> & HM & HF)]; [reflexivity|]. cbn [fitsOne]. rewrite G. apply mems_members in HM; auto. subst. apply (forallb_mems name fitsStr nullOrText); auto. apply fitsStr_iff.
Qed.

Lemma fitsPlugin_iff : forall v, fitsPlugin v = true <-> PluginOk v.
Proof.
  assert (G : forall m, forallb (fun kv : bytes * json => if keyIs "name" (fst kv) then fitsStr (snd kv) else if keyIs "remote" (fst kv) then fitsOne "url" (snd kv) else if keyIs "local" (fst kv) then fitsOne "path" (snd kv) else true) m
    = forallb fitsStr (mems "name" m) && forallb (fitsOne "url") (mems "remote" m) && forallb (fitsOne "path") (mems "local" m)).
  { induction m as [|[k w] m IH]; [reflexivity|]. cbn [forallb fst snd]. rewrite !mems_cons, IH.
    destruct (keyIs "name" k) eqn:E1; [rewrite (keyIs_other _ "remote" _ E1), (keyIs_other _ "local" _ E1) by reflexivity; cbn [forallb]; now rewrite !andb_assoc|].
    destruct (keyIs "remote" k) eqn:E2; [rewrite (keyIs_other _ "local" _ E2) by reflexivity; cbn [forallb]|].
    - destruct (fitsOne "url" w), (forallb fitsStr (mems "name" m)); reflexivity.
    - destruct (keyIs "local" k); [|reflexivity]. cbn [forallb]. destruct (fitsOne "path" w), (forallb fitsStr (mems "name" m)), (forallb (fitsOne "url") (mems "remote" m)); reflexivity. }
  intros v. split.
  - destruct v; try discriminate; [left; auto|]. cbn [fitsPlugin]. rewrite G, !andb_true_iff. intros [[H1 H2] H3]. right.
    exists m, (mems "name" m), (mems "remote" m), (mems "local" m). repeat split; try (now apply mems_members).
    + revert H1. apply forallb_mems. apply fitsStr_iff.
    + revert H2. apply forallb_mems. intros; now apply fitsOne_iff.
    + revert H3. apply forallb_mems. intros; now apply fitsOne_iff.
  - intros [-> |(m & ns & rs & ls & -> & M1 & F1 & M2 & F2 & M3 & F3)]; [reflexivity|]. cbn [fitsPlugin]. rewrite G. apply mems_members in M1, M2, M3; auto. subst.
    rewrite !andb_true_iff. repeat split; [revert F1|revert F2|revert F3]; apply forallb_mems; [apply fitsStr_iff|intros; now apply fitsOne_iff|intros; now apply fitsOne_iff].
Qed.

Lemma fitsPlugins_iff : forall v, fitsPlugins v = true <-> PluginsOk v.
Proof.
  intros v. split.
  - destruct v; try discriminate; [left; auto|]. cbn [fitsPlugins]. intros H. right. exists l. split; auto. rewrite forallb_forall in H. apply Forall_forall. intros x HX. apply fitsPlugin_iff. auto.
  - intros [-> |(l & -> & HF)]; [reflexivity|]. cbn [fitsPlugins]. apply forallb_forall. rewrite Forall_forall in HF. intros x HX. apply fitsPlugin_iff. auto.
Qed.

Lemma fitsAny_iff : forall J v, fitsAny J v = true <-> InRange J v.
Proof.
  intros J. induction v using json_rect2; cbn [fitsAny]; (split; [intros E|intros E; inversion E; subst]); auto; try (constructor; auto; fail).
  - constructor. rewrite forallb_forall in E. rewrite Forall_forall in *. intros x HX. apply H; auto.
  - apply forallb_forall. rewrite Forall_forall in *. intros x HX. apply H; auto.
  - constructor. rewrite forallb_forall in E. rewrite Forall_forall in *. intros x HX. apply H; auto. specialize (E x HX). destruct x. exact E.
  - apply forallb_forall. rewrite Forall_forall in *. intros [k x] HX. apply (H (k, x)); auto.
Qed.

Lemma fitsOptions_iff : forall J v, fitsOptions J v = true <-> OptionsOk J v.
Proof.
  intros J v. split.
  - destruct v; try discriminate; [left; auto|]. intros H. right. exists m. split; auto. now apply fitsAny_iff.
  - intros [-> |(m & -> & H)]; [reflexivity|]. now apply fitsAny_iff in H.
Qed.

(** ** The whole configuration *)

Lemma intoConfig_iff : forall J m c c', intoConfig J c m = Some c' <->
  texts (cfVersion c) (mems "version" m) = Some (cfVersion c') /\ blds (cfBuilds c) (mems "builds" m) = Some (cfBuilds c') /\
  forallb fitsPlugins (mems "plugins" m) = true /\ forallb (fitsOptions J) (mems "options" m) = true.
Proof.
  intros J. induction m as [|[k v] m IH]; intros c c'; cbn [intoConfig].
  - change (mems "version" []) with (@nil json). change (mems "builds" []) with (@nil json). cbn [texts blds]. destruct c as [x y], c' as [x' y']. cbn. split; [intros E; inversion E; auto|intros (E1 & E2 & _); congruence].
  - rewrite !mems_cons. destruct (keyIs "version" k) eqn:E1.
    { rewrite (keyIs_other _ "builds" _ E1), (keyIs_other _ "plugins" _ E1), (keyIs_other _ "options" _ E1) by reflexivity. cbn [texts]. destruct (intoString (cfVersion c) v); [exact (IH _ _)|]. split; [discriminate|intros (K & _); discriminate]. }
    destruct (keyIs "plugins" k) eqn:E2.
    { rewrite (keyIs_other _ "builds" _ E2), (keyIs_other _ "options" _ E2) by reflexivity. cbn [forallb]. destruct (fitsPlugins v); [exact (IH _ _)|]. split; [discriminate|intros (_ & _ & K & _); discriminate]. }
    destruct (keyIs "builds" k) eqn:E3.
    { rewrite (keyIs_other _ "options" _ E3) by reflexivity. cbn [blds]. destruct v; try (split; [discriminate|intros (_ & K & _); discriminate]); [exact (IH _ _)|]. destruct (intoBuilds l); [exact (IH _ _)|]. split; [discriminate|intros (_ & K & _); discriminate]. }
    destruct (keyIs "options" k) eqn:E4; [|exact (IH _ _)]. cbn [forallb]. destruct (fitsOptions J v); [exact (IH _ _)|]. split; [discriminate|intros (_ & _ & _ & K); discriminate].
Qed.

Lemma config_iff : forall J v c, match v with JNull => Some (mkConfig [] []) | JObj m => if second false m then jSecond J (JObj m) else intoConfig J (mkConfig [] []) m | _ => None end = Some c <-> ConfigOf J v c.
Proof.
  intros J v c. split.
  - destruct v; try discriminate; [intros E; inversion E; constructor|]. destruct (second false m) eqn:ES.
    + intros E. eapply cf_refilled; eauto; [now apply mems_members|]. now apply second_iff.
    + intros E. apply intoConfig_iff in E as (H1 & H2 & H3 & H4). cbn [cfVersion cfBuilds] in *. eapply cf_obj with (bs := mems "builds" m) (ps := mems "plugins" m) (os := mems "options" m); try (now apply mems_members).
      * now apply text_iff.
      * intros K. apply second_iff in K. congruence.
      * now apply blds_iff.
      * revert H3. apply forallb_mems, fitsPlugins_iff.
      * revert H4. apply forallb_mems, fitsOptions_iff.
  - intros H. inversion H as [|m c0 bs ps os H1 M2 H2 H3 M4 H4 M5 H5|m bs c0 M1 H1 H2]; subst; auto.
    + apply mems_members in M2, M4, M5; auto. subst. destruct (second false m) eqn:ES; [exfalso; apply H2; now apply second_iff|]. apply intoConfig_iff. cbn [cfVersion cfBuilds]. repeat split.
      * now apply text_iff.
      * now apply blds_iff.
      * revert H4. apply forallb_mems, fitsPlugins_iff.
      * revert H5. apply forallb_mems, fitsOptions_iff.
    + apply mems_members in M1; auto. subst. apply second_iff in H1. now rewrite H1.
Qed.
