(** About the grammar of RFC 8610: a recogniser for part of it, and conditions that all
    its texts meet. *)
From Coq Require Import String.
From Verif Require Import Base Rfc.
Open Scope string_scope.
Open Scope list_scope.
Open Scope Z_scope.

(** ** A recogniser *)

(** A recogniser returns what may be left of the text. It need not find everything. *)
Definition recog : Type := bytes -> list bytes.
Definition sound (P : bytes -> Prop) (p : recog) : Prop := forall s r, In r (p s) -> exists w, P w /\ s = w ++ r.

Definition andThen (p q : recog) : recog := fun s => flat_map q (p s).
Definition orElse (p q : recog) : recog := fun s => p s ++ q s.
Fixpoint lit (w : bytes) : recog := fun s =>
  match w, s with
  | [], _ => [s]
  | a :: w', b :: s' => if a =? b then lit w' s' else []
  | _, [] => []
  end.
Definition empty : recog := fun s => [s].

(** The longest prefix of bytes of a class, which may not be empty. *)
Fixpoint span (p : Z -> bool) (s : bytes) : bytes * bytes :=
  match s with
  | [] => ([], [])
  | c :: r => if p c then let '(a, b) := span p r in (c :: a, b) else ([], s)
  end.
Definition many (p : Z -> bool) : recog := fun s => match span p s with ([], _) => [] | (_, r) => [r] end.

(** What is left of one text is known by its length. *)
Fixpoint once (seen : list nat) (l : list bytes) : list bytes :=
  match l with
  | [] => []
  | a :: r => if existsb (Nat.eqb (length a)) seen then once seen r else a :: once (length a :: seen) r
  end.
Definition uniq (p : recog) : recog := fun s => once [] (p s).
Lemma once_in : forall l seen r, In r (once seen l) -> In r l.
Proof. induction l as [|a l IH]; intros seen r; cbn [once]; auto. destruct (existsb _ _); intros H; [right; eauto|]. destruct H as [<-|H]; [now left|right; eauto]. Qed.
Lemma uniq_in : forall p s r, In r (uniq p s) -> In r (p s).
Proof. intros p s r. apply once_in. Qed.

Lemma lit_sound : forall w s r, In r (lit w s) -> s = w ++ r.
Proof.
  induction w as [|a w IH]; intros [|b s] r; cbn [lit].
  - intros [<-|[]]. reflexivity.
  - intros [<-|[]]. reflexivity.
  - intros [].
  - destruct (a =? b) eqn:E; [|intros []]. intros H. apply IH in H. apply Z.eqb_eq in E. subst. reflexivity.
Qed.

Lemma span_sound : forall p s a b, span p s = (a, b) -> s = a ++ b /\ Forall (fun c => p c = true) a.
Proof.
  intros p. induction s as [|c s IH]; intros a b H; cbn [span] in H; [injection H as <- <-; auto|].
  destruct (p c) eqn:E; [|injection H as <- <-; auto]. destruct (span p s) as [a' b'] eqn:F. injection H as <- <-. destruct (IH _ _ eq_refl) as [-> K]. auto.
Qed.

Lemma many_sound : forall (P : Z -> Prop) p, (forall c, p c = true -> P c) -> sound (Many P) (many p).
Proof.
  intros P p H s r. unfold many. destruct (span p s) as [[|c a] b] eqn:E; [intros []|]. intros [<-|[]]. destruct (span_sound _ _ _ _ E) as [-> K].
  exists (c :: a). split; auto. split; [discriminate|]. eapply Forall_impl; [|exact K]. auto.
Qed.

Definition digitB (c : Z) : bool := (48 <=? c) && (c <=? 57).
Definition hexB (c : Z) : bool := digitB c || (65 <=? c) && (c <=? 70) || (97 <=? c) && (c <=? 102).
Definition startB (c : Z) : bool := (65 <=? c) && (c <=? 90) || (97 <=? c) && (c <=? 122) || (c =? 64) || (c =? 95) || (c =? 36).

(** Names of letters and digits only. *)
Definition ident : recog := fun s =>
  match s with
  | c :: r => if startB c then [snd (span (fun c => startB c || digitB c) r)] else []
  | [] => []
  end.

Lemma ident_sound : sound id ident.
Proof.
  intros [|c s] r; cbn [ident]; [intros []|]. destruct (startB c) eqn:E; [|intros []]. destruct (span _ s) as [a b] eqn:F. intros [<-|[]]. destruct (span_sound _ _ _ _ F) as [-> K].
  exists (c :: a). split; auto. constructor.
  - unfold startB in E. unfold EALPHA, ALPHA. lia.
  - clear F. induction K as [|x a Hx K IH]; [constructor|]. apply (idt_cons []); auto. unfold startB, digitB in Hx. unfold EALPHA, ALPHA, DIGIT. lia.
Qed.

(** Spaces, newlines and comments. *)
Fixpoint space (n : nat) (s : bytes) : bytes :=
  match n, s with
  | S n, c :: r =>
    if (c =? 32) || (c =? 10) then space n r
    else if c =? 59 then match span (fun c => (32 <=? c) && (c <=? 126)) r with (_, d :: r') => if d =? 10 then space n r' else s | _ => s end
    else s
  | _, _ => s
  end.
Definition sp : recog := fun s => [space (length s) s].

Lemma space_sound : forall n s, exists w, S_ w /\ s = w ++ space n s.
Proof.
  assert (K0 : forall s, exists w, S_ w /\ s = w ++ s) by (intros s; exists []; split; [constructor|reflexivity]).
  induction n as [|n IH]; intros s; [apply K0|]. cbn [space]. destruct s as [|c r]; [apply K0|].
  destruct ((c =? 32) || (c =? 10)) eqn:E1; [|destruct (c =? 59) eqn:E2; [|apply K0]].
  - destruct (IH r) as (w & HW & E). exists ([c] ++ w). split; [|cbn; congruence]. apply star_cons; [|exact HW].
    apply orb_true_iff in E1. rewrite !Z.eqb_eq in E1. destruct E1 as [-> | ->]; [constructor|apply ws_crlf; constructor].
  - apply Z.eqb_eq in E2. subst c. destruct (span _ r) as [a [|d b]] eqn:F; [apply K0|]. destruct (d =? 10) eqn:E3; [|apply K0]. apply Z.eqb_eq in E3. subst d.
    destruct (span_sound _ _ _ _ F) as [-> K]. destruct (IH b) as (w & HW & E). exists ((59 :: a ++ [10]) ++ w). split.
    + apply star_cons; [|exact HW]. apply ws_comment; [|constructor]. clear F. induction K as [|x a Hx K IHK]; [constructor|]. apply (star_cons _ [x]); auto. apply pchar_ascii. lia.
    + cbn. rewrite <- !app_assoc. cbn. congruence.
Qed.

Lemma sp_sound : sound S_ sp.
Proof. intros s r [<-|[]]. apply space_sound. Qed.

Lemma lit_is : forall w, sound (fun x => x = w) (lit w).
Proof. intros w s r H. exists w. split; auto. now apply lit_sound. Qed.

(** Numbers. *)
Definition uintR : recog := fun s =>
  match s with
  | c :: t =>
    if c =? 48 then match t with d :: u => if d =? 120 then many hexB u else [t] | [] => [t] end
    else many digitB s
  | [] => []
  end.
Lemma uint_sound : sound uint uintR.
Proof.
  intros [|c s] r H; [destruct H|]. cbn [uintR] in H. destruct (c =? 48) eqn:E.
  - apply Z.eqb_eq in E. subst c. destruct s as [|d s]; [destruct H as [<-|[]]; exists [48]; split; [apply uint_zero|reflexivity]|]. destruct (d =? 120) eqn:F.
    + apply Z.eqb_eq in F. subst d. destruct (many_sound HEXDIG hexB ltac:(unfold hexB, digitB, HEXDIG, DIGIT; lia) _ _ H) as (w & HW & ->). exists (48 :: 120 :: w). split; [apply uint_hex; auto; now left|reflexivity].
    + destruct H as [<-|[]]. exists [48]. split; [apply uint_zero|reflexivity].
  - destruct (many_sound DIGIT digitB ltac:(unfold digitB, DIGIT; lia) _ _ H) as (w & [W1 W2] & K). exists w. split; auto. destruct w as [|x w]; [congruence|].
    inversion W2; subst. injection K as <- _. apply uint_dec; auto. unfold DIGIT, DIGIT1 in *. lia.
Qed.

(** Numbers, with an optional sign. *)
Definition exponentR : recog := orElse (many digitB) (orElse (andThen (lit [45]) (many digitB)) (andThen (lit [43]) (many digitB))).
Definition intR : recog := orElse uintR (andThen (lit [45]) uintR).
Definition numberR : recog :=
  orElse (andThen intR (andThen (lit [46]) (andThen (many digitB) (andThen (lit [101]) exponentR))))
  (orElse (andThen (lit [48; 120]) (andThen (many hexB) (andThen (lit [112]) exponentR)))
  (orElse (andThen intR (andThen (lit [46]) (many digitB))) intR)).

(** Text without escapes but those of one ASCII character, and byte strings of letters. *)
Fixpoint scharsR (n : nat) (s : bytes) : bytes :=
  match n, s with
  | S n, c :: r =>
    if c =? 92 then match r with d :: r' => if (32 <=? d) && (d <=? 126) then scharsR n r' else s | [] => s end
    else if (32 <=? c) && (c <=? 126) && negb (c =? 34) then scharsR n r else s
  | _, _ => s
  end.
Definition schars : recog := fun s => [scharsR (length s) s].
Definition textR : recog := andThen (lit [34]) (andThen schars (lit [34])).
Definition bytesR : recog := andThen (orElse (lit (str "h")) (orElse (lit (str "b64")) empty)) (andThen (lit [39]) (andThen (many hexB) (lit [39]))).
Definition valueR : recog := orElse numberR (orElse textR bytesR).

(** Turns [In r (p s)] into the text that was read. *)
Ltac read :=
  repeat match goal with
  | H : In _ (andThen _ _ _) |- _ => unfold andThen at 1 in H; apply in_flat_map in H; destruct H as (? & ? & ?)
  | H : In _ (uniq _ _) |- _ => apply uniq_in in H
  | H : In _ (orElse _ _ _) |- _ => unfold orElse at 1 in H; apply in_app_or in H; destruct H as [H|H]
  | H : In _ (lit _ _) |- _ => apply lit_sound in H; subst
  | H : In _ (empty _) |- _ => destruct H as [H|[]]; subst
  | H : In _ (sp _) |- _ => apply sp_sound in H; destruct H as (? & ? & ?); subst
  | H : In _ (ident _) |- _ => apply ident_sound in H; destruct H as (? & ? & ?); subst
  | H : In _ (uintR _) |- _ => apply uint_sound in H; destruct H as (? & ? & ?); subst
  | H : In _ (many digitB _) |- _ => apply (many_sound DIGIT digitB ltac:(unfold digitB, DIGIT; lia)) in H; destruct H as (? & ? & ?); subst
  | H : In _ (many hexB _) |- _ => apply (many_sound HEXDIG hexB ltac:(unfold hexB, digitB, HEXDIG, DIGIT; lia)) in H; destruct H as (? & ? & ?); subst
  end.
Ltac same := cbn [app]; repeat (rewrite <- ?app_assoc; cbn [app]); reflexivity.
(** The text read from [l] when [r] is left. *)
Ltac before l r :=
  lazymatch l with
  | r => constr:(@nil Z)
  | ?a ++ r => a
  | ?a ++ ?t => let p := before t r in constr:(a ++ p)
  end.
(** The text is what the constructor [c] says. *)
Ltac by_ c :=
  lazymatch goal with |- exists w, _ /\ ?l = w ++ ?r => let p := before l r in exists p; split; [cbn [app]; eapply c; eauto|same] end.

Lemma int_sound : sound int intR.
Proof. intros s r H. unfold intR in H. read; [by_ int_pos|by_ int_neg]. Qed.
Lemma exponent_sound : sound exponent exponentR.
Proof. intros s r H. unfold exponentR in H. read; [by_ exp_plain|by_ exp_sign|by_ exp_sign]. Qed.
Ltac read ::=
  repeat match goal with
  | H : In _ (andThen _ _ _) |- _ => unfold andThen at 1 in H; apply in_flat_map in H; destruct H as (? & ? & ?)
  | H : In _ (uniq _ _) |- _ => apply uniq_in in H
  | H : In _ (orElse _ _ _) |- _ => unfold orElse at 1 in H; apply in_app_or in H; destruct H as [H|H]
  | H : In _ (lit _ _) |- _ => apply lit_sound in H; subst
  | H : In _ (empty _) |- _ => destruct H as [H|[]]; subst
  | H : In _ (sp _) |- _ => apply sp_sound in H; destruct H as (? & ? & ?); subst
  | H : In _ (ident _) |- _ => apply ident_sound in H; destruct H as (? & ? & ?); subst
  | H : In _ (uintR _) |- _ => apply uint_sound in H; destruct H as (? & ? & ?); subst
  | H : In _ (intR _) |- _ => apply int_sound in H; destruct H as (? & ? & ?); subst
  | H : In _ (exponentR _) |- _ => apply exponent_sound in H; destruct H as (? & ? & ?); subst
  | H : In _ (many digitB _) |- _ => apply (many_sound DIGIT digitB ltac:(unfold digitB, DIGIT; lia)) in H; destruct H as (? & ? & ?); subst
  | H : In _ (many hexB _) |- _ => apply (many_sound HEXDIG hexB ltac:(unfold hexB, digitB, HEXDIG, DIGIT; lia)) in H; destruct H as (? & ? & ?); subst
  end.
Lemma same_case : forall c, eitherCase c c.
Proof. now left. Qed.
Local Hint Resolve same_case : core.
Lemma number_sound : sound number numberR.
Proof.
  intros s r H. unfold numberR in H. read; [by_ num_both| |by_ num_frac|by_ num_int].
  by_ (num_hex []).
Qed.

Lemma schars_sound : forall n s, exists w, Star SCHAR w /\ s = w ++ scharsR n s.
Proof.
  assert (K0 : forall s, exists w, Star SCHAR w /\ s = w ++ s) by (intros s; exists []; split; [constructor|reflexivity]).
  induction n as [|n IH]; intros s; [apply K0|]. cbn [scharsR]. destruct s as [|c r]; [apply K0|].
  destruct (c =? 92) eqn:E; [|destruct ((32 <=? c) && (c <=? 126) && negb (c =? 34)) eqn:F; [|apply K0]].
  - destruct r as [|d r]; [apply K0|]. destruct ((32 <=? d) && (d <=? 126)) eqn:F; [|apply K0]. destruct (IH r) as (w & HW & K). apply Z.eqb_eq in E. subst c.
    exists ([92; d] ++ w). split; [apply star_cons; [apply schar_esc, sesc_ascii; lia|exact HW]|cbn; congruence].
  - destruct (IH r) as (w & HW & K). exists ([c] ++ w). split; [apply star_cons; [apply schar_ascii; lia|exact HW]|cbn; congruence].
Qed.

Lemma hex_bchar : forall w, Many HEXDIG w -> Star BCHAR w.
Proof. intros w [_ H]. induction H as [|c w Hc H IH]; [constructor|]. apply (star_cons _ [c]); auto. apply bchar_ascii; unfold HEXDIG, DIGIT in Hc; lia. Qed.

Lemma value_sound : sound value valueR.
Proof.
  intros s r H. unfold valueR, textR, bytesR in H. read.
  - apply number_sound in H. destruct H as (w & HW & ->). by_ val_number.
  - match goal with K : In _ (schars ?u) |- _ => destruct K as [K|[]]; destruct (schars_sound (length u) u) as (w & HW & E); rewrite K in E; rewrite E end. by_ val_text.
  - pose proof hex_bchar. by_ (val_bytes (str "h")); simpl; auto.
  - pose proof hex_bchar. by_ (val_bytes (str "b64")); simpl; auto.
  - pose proof hex_bchar. by_ (val_bytes []); simpl; auto.
Qed.

Inductive nonterm : Type := NType | NType1 | NType2 | NArgs | NGroup | NChoice | NEnt | NBody | NKey.

Definition opR : recog := orElse (lit (str "...")) (orElse (lit (str "..")) (andThen (lit [46]) ident)).
Definition occurR : recog := orElse (lit [63]) (orElse (lit [43]) (andThen (orElse uintR empty) (andThen (lit [42]) (orElse uintR empty)))).

Definition optcomR : recog := orElse (andThen sp (andThen (lit [44]) sp)) sp.

Fixpoint rec (n : nat) (k : nonterm) (s : bytes) {struct n} : list bytes :=
  match n with
  | O => []
  | S n =>
    let oarg := orElse (andThen (lit [60]) (andThen (rec n NArgs) (lit [62]))) empty in
    (match k with
    | NType => uniq (andThen (rec n NType1) (orElse (andThen sp (andThen (lit [47]) (andThen sp (rec n NType)))) empty))
    | NType1 => uniq (andThen (rec n NType2) (orElse (andThen sp (andThen opR (andThen sp (rec n NType2)))) empty))
    | NType2 =>
      orElse valueR (orElse (andThen ident oarg)
      (orElse (andThen (lit [40]) (andThen sp (andThen (rec n NType) (andThen sp (lit [41])))))
      (orElse (andThen (lit [123]) (andThen sp (andThen (rec n NGroup) (andThen sp (lit [125])))))
      (andThen (lit [91]) (andThen sp (andThen (rec n NGroup) (andThen sp (lit [93]))))))))
    | NArgs => andThen sp (andThen (rec n NType1) sp)
    | NGroup => rec n NChoice
    | NChoice => uniq (orElse (andThen (rec n NEnt) (andThen optcomR (rec n NChoice))) empty)
    | NEnt => uniq (andThen (orElse (andThen occurR sp) empty) (rec n NBody))
    | NBody => uniq (andThen (orElse (andThen (rec n NKey) sp) empty) (rec n NType))
    | NKey =>
      orElse (andThen valueR (andThen sp (lit [58]))) (orElse (andThen ident (andThen sp (lit [58])))
      (andThen (rec n NType1) (andThen sp (orElse (andThen (lit [94]) (andThen sp (lit (str "=>")))) (lit (str "=>"))))))
    end) s
  end.

Definition texts (k : nonterm) : bytes -> Prop :=
  match k with
  | NType => type | NType1 => type1 | NType2 => type2 | NArgs => args | NGroup => group | NChoice => grpchoice | NEnt => grpent
  | NBody => fun w => exists k a, optKey k /\ type a /\ w = k ++ a
  | NKey => memberkey
  end.

Lemma op_sound : sound rangeOrCtl opR.
Proof. intros s r H. unfold opR in H. read; [by_ rc_range3|by_ rc_range2|by_ rc_ctl]. Qed.
Lemma occur_sound : sound occur occurR.
Proof.
  intros s r H. unfold occurR in H. read; [by_ occ_opt|by_ occ_plus|by_ occ_star| | |].
  all: first [by_ (occ_star []); fail | by_ (occ_star [] []); fail | match goal with |- exists w, _ /\ ?a ++ _ = _ => exists (a ++ [42]); split; [apply (occ_star a []); auto|same] end].
Qed.
Lemma optcom_sound : sound optcom optcomR.
Proof. intros s r H. unfold optcomR in H. read; [by_ oc_comma|by_ oc_none]. Qed.

Lemma rec_sound : forall n k, sound (texts k) (rec n k).
Proof.
  induction n as [|n IH]; intros k s r H; [destruct H|].
  assert (KR : forall k s r, In r (rec n k s) -> exists w, texts k w /\ s = w ++ r) by (intros; now apply IH).
  Ltac more KR := repeat progress (read; try match goal with
    | K : In _ (rec _ ?k _) |- _ => apply KR in K; destruct K as (? & K & ?); cbn [texts] in K; subst
    | K : In _ (valueR _) |- _ => apply value_sound in K; destruct K as (? & ? & ?); subst
    | K : In _ (opR _) |- _ => apply op_sound in K; destruct K as (? & ? & ?); subst
    | K : In _ (occurR _) |- _ => apply occur_sound in K; destruct K as (? & ? & ?); subst
    | K : In _ (optcomR _) |- _ => apply optcom_sound in K; destruct K as (? & ? & ?); subst
    end).
  destruct k; cbn [rec] in H; cbv zeta beta in H; cbn [texts].
  - more KR; [by_ type_more|by_ type_one].
  - more KR; [by_ type1_op|by_ type1_one].
  - more KR; [by_ type2_value|by_ type2_name; now constructor| |by_ type2_paren|by_ type2_map|by_ type2_array].
    match goal with K : id ?x |- _ => exists x; split; [rewrite <- (app_nil_r x); apply type2_name; auto; constructor|reflexivity] end.
  - more KR; by_ args_one.
  - more KR; by_ group_one.
  - more KR; [by_ gc_cons|by_ gc_nil].
  - more KR.
    + destruct H0 as (k & a & K1 & K2 & ->). exists ((x ++ x1) ++ k ++ a). split; [apply ge_type; auto; now constructor|same].
    + destruct H0 as (k & a & K1 & K2 & ->). exists ([] ++ k ++ a). split; [apply ge_type; auto; constructor|same].
  - more KR.
    + match goal with K : memberkey ?k, K' : S_ ?s, K2 : type ?a |- _ => exists ((k ++ s) ++ a); split; [exists (k ++ s), a; split; [now constructor|auto]|same] end.
    + match goal with K2 : type ?a |- _ => exists a; split; [exists [], a; split; [constructor|auto]|same] end.
  - more KR; [by_ mk_value|by_ mk_bare|by_ mk_cut|by_ mk_arrow].
Qed.

Definition ruleR (n : nat) : recog :=
  andThen ident (andThen (orElse (andThen (lit [60]) (andThen sp (andThen ident (andThen sp (lit [62]))))) empty) (andThen sp
    (orElse (andThen (orElse (lit (str "=")) (lit (str "/="))) (andThen sp (rec n NType)))
            (andThen (orElse (lit (str "=")) (lit (str "//="))) (andThen sp (rec n NEnt)))))).

Lemma rule_sound : forall n, sound rule (ruleR n).
Proof.
  intros n s r H. unfold ruleR in H.
  assert (KR : forall k s r, In r (rec n k s) -> exists w, texts k w /\ s = w ++ r) by (intros k s0 r0 K; exact (rec_sound n k s0 r0 K)).
  Ltac noparm c := match goal with |- exists w, _ /\ ?x ++ ?t = _ ++ ?r => let p := before t r in exists (x ++ [] ++ p); split; [eapply c; eauto; [constructor|simpl; auto]|same] end.
  Ltac parm c := match goal with |- exists w, _ /\ ?x ++ [60] ++ ?a ++ ?b ++ ?d ++ [62] ++ ?t = _ ++ ?r => let p := before t r in exists (x ++ (60 :: (a ++ b ++ d) ++ [62]) ++ p); split; [eapply c; eauto; [now repeat constructor|simpl; auto]|same] end.
  repeat progress (read; try match goal with K : In _ (rec _ ?k _) |- _ => apply KR in K; destruct K as (? & K & ?); cbn [texts] in K; subst end).
  all: first [parm rule_type; fail | parm rule_group; fail | noparm rule_type; fail | noparm rule_group].
Qed.

Fixpoint rulesR (n : nat) : recog :=
  match n with
  | O => fun _ => []
  | S n => orElse (andThen (ruleR 20) sp) (andThen (ruleR 20) (andThen sp (rulesR n)))
  end.
Lemma rules_sound : forall n, sound rules (rulesR n).
Proof.
  induction n as [|n IH]; intros s r H; [destruct H|]. cbn [rulesR] in H. read.
  - apply rule_sound in H. destruct H as (w & HW & ->). by_ rules_one.
  - apply rule_sound in H. destruct H as (w & HW & ->). match goal with K : In _ (rulesR _ _) |- _ => apply IH in K; destruct K as (? & ? & ?); subst end. by_ rules_more.
Qed.

(** Texts of CDDL found by the recogniser. *)
Theorem cddl_by : forall s, existsb (fun r => match r with [] => true | _ => false end) (andThen sp (rulesR 5) s) = true -> cddl s.
Proof.
  intros s H. apply existsb_exists in H. destruct H as (r & H & E). destruct r; [|discriminate]. read. match goal with K : In _ (rulesR _ _) |- _ => apply rules_sound in K; destruct K as (? & ? & ?); subst end.
  rewrite app_nil_r. now constructor.
Qed.


(** ** What all texts have in common *)

(** Where a reader is: in a comment, a text or byte string, after a backslash in one of
    these; how many brackets are open; whether a comma outside of all brackets or a tab has
    been seen. *)
Inductive mode : Type := Code | Cmt | Txt | TxtEsc | Byt | BytEsc.

Definition step (x : mode * Z * bool) (c : Z) : mode * Z * bool :=
  let '(m, d, b) := x in
  let b := b || (c =? 9) in
  match m with
  | Code =>
    if c =? 34 then (Txt, d, b) else if c =? 39 then (Byt, d, b) else if c =? 59 then (Cmt, d, b)
    else if (c =? 40) || (c =? 91) || (c =? 123) then (Code, d + 1, b)
    else if (c =? 41) || (c =? 93) || (c =? 125) then (Code, d - 1, b)
    else if c =? 44 then (Code, d, b || (d =? 0)) else (Code, d, b)
  | Cmt => if c =? 10 then (Code, d, b) else (Cmt, d, b)
  | Txt => if c =? 92 then (TxtEsc, d, b) else if c =? 34 then (Code, d, b) else (Txt, d, b)
  | TxtEsc => (Txt, d, b)
  | Byt => if c =? 92 then (BytEsc, d, b) else if c =? 39 then (Code, d, b) else (Byt, d, b)
  | BytEsc => (Byt, d, b)
  end.
Definition read_ (x : mode * Z * bool) (s : bytes) : mode * Z * bool := fold_left step s x.

(** [still k w]: after [w] the reader is where it was, inside of at least [k] brackets. *)
Definition still (k : Z) (w : bytes) : Prop := forall d b, k <= d -> read_ (Code, d, b) w = (Code, d, b).

Lemma still_nil : forall k, still k [].
Proof. intros k d b _. reflexivity. Qed.
Lemma read_app : forall x a b, read_ x (a ++ b) = read_ (read_ x a) b.
Proof. intros. apply fold_left_app. Qed.
Lemma read_cons : forall x c s, read_ x (c :: s) = read_ (step x c) s.
Proof. reflexivity. Qed.
Lemma still_app : forall k a b, still k a -> still k b -> still k (a ++ b).
Proof. intros k a b HA HB d x K. now rewrite read_app, HA, HB. Qed.
Lemma still_le : forall k k' a, k <= k' -> still k a -> still k' a.
Proof. intros k k' a L H d b K. apply H. lia. Qed.

Definition plainB (c : Z) : bool := negb (existsb (Z.eqb c) [9; 34; 39; 59; 40; 41; 91; 93; 123; 125; 44]).
Lemma plain_step : forall d b c, plainB c = true -> step (Code, d, b) c = (Code, d, b).
Proof.
  intros d b c H. unfold plainB in H. cbn [existsb] in H. rewrite negb_true_iff, !orb_false_iff in H. unfold step.
  destruct H as (H9 & H34 & H39 & H59 & H40 & H41 & H91 & H93 & H123 & H125 & H44 & _). rewrite H9, H34, H39, H59, H40, H41, H91, H93, H123, H125, H44. cbn [orb]. now rewrite orb_false_r.
Qed.
Lemma still_plain : forall k w, Forall (fun c => plainB c = true) w -> still k w.
Proof. intros k w H d b K. induction H as [|c w Hc H IH]; [reflexivity|]. now rewrite read_cons, plain_step. Qed.
Lemma still_one : forall k c w, plainB c = true -> still k w -> still k (c :: w).
Proof. intros k c w H HW d b K. rewrite read_cons, plain_step by auto. now apply HW. Qed.
Lemma still_open : forall k o c w, In (o, c) [(40, 41); (91, 93); (123, 125)] -> 0 <= k -> still 1 w -> still k (o :: w ++ [c]).
Proof.
  intros k o c w H K HW d b L. rewrite read_cons, read_app.
  assert (HD : forall x, read_ (Code, d + 1, x) w = (Code, d + 1, x)) by (intros x; apply HW; lia).
  assert (ED : d + 1 - 1 = d) by lia.
  destruct H as [E|[E|[E|[]]]]; injection E as <- <-; unfold step at 1; cbn -[read_ Z.add Z.sub]; rewrite orb_false_r, HD; cbn -[Z.add Z.sub]; now rewrite orb_false_r, ED.
Qed.

Lemma plain_class : forall (P : Z -> Prop) w, (forall c, P c -> plainB c = true) -> Forall P w -> Forall (fun c => plainB c = true) w.
Proof. intros P w H F. eapply Forall_impl; eauto. Qed.
Ltac classB := unfold plainB, EALPHA, ALPHA, DIGIT, DIGIT1, HEXDIG, BINDIG, DIGIT; cbn [existsb]; lia.
Lemma plain_ealpha : forall c, EALPHA c -> plainB c = true. Proof. intros c. classB. Qed.
Lemma plain_hex : forall c, HEXDIG c -> plainB c = true. Proof. intros c. classB. Qed.
Lemma plain_digit : forall c, DIGIT c -> plainB c = true. Proof. intros c. classB. Qed.
Lemma plain_bin : forall c, BINDIG c -> plainB c = true. Proof. intros c. classB. Qed.
Lemma plain_digit1 : forall c, DIGIT1 c -> plainB c = true. Proof. intros c. classB. Qed.

Definition plains (w : bytes) : Prop := Forall (fun c => plainB c = true) w.
Lemma plains_app : forall a b, plains a -> plains b -> plains (a ++ b).
Proof. intros a b HA HB. apply Forall_app. auto. Qed.
Lemma plains_cons : forall c b, plainB c = true -> plains b -> plains (c :: b).
Proof. intros. now constructor. Qed.
#[local] Hint Resolve plains_app plains_cons plain_ealpha plain_hex plain_digit plain_bin plain_digit1 : core.
#[local] Hint Extern 1 (plainB _ = true) => reflexivity : core.
#[local] Hint Extern 1 (plains []) => constructor : core.

Lemma id_plain : forall w, id w -> plains w.
Proof.
  intros w [c r H T]. apply plains_cons; auto. clear H. induction T as [|ds x r HD HX T IH]; [constructor|]. apply plains_app; [|apply plains_cons; auto; destruct HX; auto].
  eapply Forall_impl; [|exact HD]. intros a [-> | ->]; reflexivity.
Qed.
Lemma many_plain : forall (P : Z -> Prop) w, (forall c, P c -> plainB c = true) -> Many P w -> plains w.
Proof. intros P w H [_ F]. eapply Forall_impl; [|exact F]. auto. Qed.
Lemma uint_plain : forall w, uint w -> plains w.
Proof. intros w []; repeat match goal with H : eitherCase _ _ |- _ => destruct H as [-> | ->] end; eauto using many_plain. apply plains_cons; auto. eapply Forall_impl; [|eassumption]. auto. Qed.
Lemma int_plain : forall w, int w -> plains w.
Proof. intros w []; auto using uint_plain. Qed.
Lemma exp_plain_ : forall w, exponent w -> plains w.
Proof. intros w [v H|c v [-> | ->] H]; eauto using many_plain. Qed.
Lemma number_plain : forall w, number w -> plains w.
Proof.
  intros w []; unfold eitherCase in *; repeat match goal with H : _ \/ _ |- _ => destruct H as [-> | ->] end; cbn [Z.sub Z.add Z.opp Z.pos_sub] in *;
    repeat match goal with H : Many DIGIT _ |- _ => apply (many_plain _ _ plain_digit) in H | H : Many HEXDIG _ |- _ => apply (many_plain _ _ plain_hex) in H
      | H : int _ |- _ => apply int_plain in H | H : exponent _ |- _ => apply exp_plain_ in H end; auto 20 using plains_app, plains_cons.
Qed.

Lemma wide_bytes : forall w, Wide w -> Forall (fun c => 128 <= c) w.
Proof. intros w []; unfold tailByte in *; repeat (apply Forall_cons; [lia|]); apply Forall_nil. Qed.

(** Bytes that change nothing in a given place. *)
Lemma read_same : forall m d b w, (forall c, In c w -> step (m, d, b) c = (m, d, b)) -> read_ (m, d, b) w = (m, d, b).
Proof. intros m d b. induction w as [|c w IH]; intros H; [reflexivity|]. rewrite read_cons, H by (now left). apply IH. intros x Hx. apply H. now right. Qed.

Lemma step_high : forall m d b c, In m [Cmt; Txt; Byt] -> 128 <= c -> step (m, d, b) c = (m, d, b).
Proof.
  intros m d b c H L. unfold step. replace (c =? 9) with false by lia. replace (c =? 10) with false by lia. replace (c =? 92) with false by lia. replace (c =? 34) with false by lia. replace (c =? 39) with false by lia.
  rewrite orb_false_r. destruct H as [<-|[<-|[<-|[]]]]; reflexivity.
Qed.
Lemma read_wide : forall m d b w, In m [Cmt; Txt; Byt] -> Forall (fun c => 128 <= c) w -> read_ (m, d, b) w = (m, d, b).
Proof. intros m d b w H F. apply read_same. intros c Hc. rewrite Forall_forall in F. apply step_high; auto. Qed.

Lemma read_star : forall (P : bytes -> Prop) x w, (forall a, P a -> read_ x a = x) -> Star P w -> read_ x w = x.
Proof. intros P x w H S. induction S as [|a b HA S IH]; [reflexivity|]. now rewrite read_app, H. Qed.

Lemma crlf_read : forall d b n, CRLF n -> read_ (Cmt, d, b) n = (Code, d, b).
Proof. intros d b n []; cbn; now rewrite !orb_false_r. Qed.

Lemma pchar_read : forall d b w, PCHAR w -> read_ (Cmt, d, b) w = (Cmt, d, b).
Proof.
  intros d b w [c H|v H]; [|apply read_wide; [simpl; auto|now apply wide_bytes]]. cbn. replace (c =? 9) with false by lia. replace (c =? 10) with false by lia. now rewrite orb_false_r.
Qed.

Lemma space_still : forall k w, S_ w -> still k w.
Proof.
  intros k w H d b K. apply (read_star WS); auto. intros a [|n []|v n HV HN]; [cbn; now rewrite orb_false_r|cbn; now rewrite orb_false_r|cbn; now rewrite !orb_false_r|].
  rewrite read_cons, read_app. cbn [step]. cbn -[read_]. rewrite orb_false_r. rewrite (read_star PCHAR (Cmt, d, b) v); auto using pchar_read, crlf_read.
Qed.

Lemma sesc_read : forall m e d b w, (m, e) = (Txt, TxtEsc) \/ (m, e) = (Byt, BytEsc) -> SESC w -> read_ (m, d, b) w = (m, d, b).
Proof.
  intros m e d b w H [c HC|v HV].
  - destruct H as [E|E]; injection E as -> ->; cbn; rewrite !orb_false_r; replace (c =? 9) with false by lia; now rewrite orb_false_r.
  - assert (K : exists c v', v = c :: v' /\ 128 <= c /\ Forall (fun c => 128 <= c) v').
    { pose proof (wide_bytes _ HV) as F. destruct HV; inversion F; subst; eauto. }
    destruct K as (c & v' & -> & KC & KF). rewrite !read_cons.
    assert (E : step (step (m, d, b) 92) c = (m, d, b)) by (destruct H as [E|E]; injection E as -> ->; cbn; rewrite orb_false_r; replace (c =? 9) with false by lia; now rewrite orb_false_r).
    rewrite E. apply read_wide; auto. destruct H as [X|X]; injection X as -> _; simpl; auto.
Qed.

Lemma schar_read : forall d b w, SCHAR w -> read_ (Txt, d, b) w = (Txt, d, b).
Proof.
  intros d b w [c H N1 N2|v H|v H]; [|apply read_wide; [simpl; auto|now apply wide_bytes]|eapply sesc_read; eauto].
  cbn. replace (c =? 9) with false by lia. replace (c =? 92) with false by lia. replace (c =? 34) with false by lia. now rewrite orb_false_r.
Qed.
Lemma bchar_read : forall d b w, BCHAR w -> read_ (Byt, d, b) w = (Byt, d, b).
Proof.
  intros d b w [c H N1 N2|v H|v H|v []]; [|apply read_wide; [simpl; auto|now apply wide_bytes]|eapply sesc_read; eauto|cbn; now rewrite orb_false_r|cbn; now rewrite !orb_false_r].
  cbn. replace (c =? 9) with false by lia. replace (c =? 92) with false by lia. replace (c =? 39) with false by lia. now rewrite orb_false_r.
Qed.

Lemma value_still : forall k w, value w -> still k w.
Proof.
  intros k w [v H|v H|q v HQ H].
  - now apply still_plain, number_plain.
  - intros d b K. rewrite read_cons, read_app. cbn -[read_]. rewrite orb_false_r. rewrite (read_star SCHAR (Txt, d, b) v); auto using schar_read. cbn. now rewrite orb_false_r.
  - apply still_app; [apply still_plain; destruct HQ as [<-|[<-|[<-|[<-|[<-|[]]]]]]; repeat constructor|].
    intros d b K. rewrite read_cons, read_app. cbn -[read_]. rewrite orb_false_r. rewrite (read_star BCHAR (Byt, d, b) v); auto using bchar_read. cbn. now rewrite orb_false_r.
Qed.

Lemma occur_still : forall k w, optOccur w -> still k w.
Proof.
  intros k w [|o s HO HS]; [apply still_nil|]. apply still_app; [|now apply space_still]. apply still_plain. destruct HO as [| |a b HA HB]; auto.
  apply plains_app; [destruct HA as [->|HA]; auto using uint_plain|apply plains_cons; auto; destruct HB as [->|HB]; auto using uint_plain].
Qed.
Lemma op_still : forall k w, rangeOrCtl w -> still k w.
Proof. intros k w [| |v H]; apply still_plain; [repeat constructor|repeat constructor|apply plains_cons; auto using id_plain]. Qed.
Lemma optcom_still : forall w, optcom w -> still 1 w.
Proof.
  intros w [s H|s t H1 H2]; [now apply space_still|]. apply still_app; [now apply space_still|]. intros d b K. rewrite read_cons. cbn -[read_ Z.eqb]. replace (d =? 0) with false by lia. change (44 =? 9) with false. cbn -[read_].
  rewrite !orb_false_r. apply (space_still 0); auto. lia.
Qed.

Lemma not_in_app : forall (c : Z) a b, ~ In c (a ++ b) -> ~ In c a /\ ~ In c b.
Proof. intros c a b H. split; intros K; apply H, in_or_app; auto. Qed.
Lemma not_in_cons : forall (c x : Z) b, ~ In c (x :: b) -> x <> c /\ ~ In c b.
Proof. intros c x b H. split; intros K; apply H; [now left|now right]. Qed.

Ltac parts := repeat match goal with
  | H : ~ In 60 (_ ++ _) |- _ => apply not_in_app in H; destruct H
  | H : ~ In 60 (_ :: _) |- _ => apply not_in_cons in H; destruct H
  | H : ~ In 60 ?w -> _, K : ~ In 60 ?w |- _ => specialize (H K)
  end.
Ltac stills := repeat first [assumption | apply still_nil | apply still_app | apply still_one; [reflexivity|] | apply space_still; assumption | apply value_still; assumption | apply occur_still; assumption
  | apply op_still; assumption | apply optcom_still; assumption | apply still_plain; apply id_plain; assumption | (eapply still_le; [|eassumption]; lia)].

Lemma types_still :
  (forall w, type w -> ~ In 60 w -> still 0 w) /\ (forall w, type1 w -> ~ In 60 w -> still 0 w) /\ (forall w, type2 w -> ~ In 60 w -> still 0 w) /\
  (forall w, optArg w -> ~ In 60 w -> still 0 w) /\ (forall w, args w -> True) /\ (forall w, group w -> ~ In 60 w -> still 1 w) /\
  (forall w, grpchoice w -> ~ In 60 w -> still 1 w) /\ (forall w, grpent w -> ~ In 60 w -> still 0 w) /\ (forall w, optKey w -> ~ In 60 w -> still 0 w) /\ (forall w, memberkey w -> ~ In 60 w -> still 0 w).
Proof.
  apply types_mind; intros; auto; parts; stills.
  all: try match goal with |- still 0 (?o :: ?s ++ ?a ++ ?t ++ [?c]) => replace (o :: s ++ a ++ t ++ [c]) with (o :: (s ++ a ++ t) ++ [c]) by (now rewrite <- !app_assoc); apply still_open; [simpl; auto|lia|stills] end.
  - match goal with K : _ \/ _ |- _ => destruct K as [->|(u & K & ->)] end; [apply still_nil|]. apply still_plain, plains_cons; auto using uint_plain.
  - apply still_one; auto. match goal with K : _ \/ _ |- _ => destruct K as [->|(u & K & ->)] end; [apply still_nil|]. apply still_plain, plains_cons; auto using uint_plain.
  - exfalso. match goal with K : 60 <> 60 |- _ => now apply K end.
Qed.

Lemma rule_still : forall w, rule w -> ~ In 60 w -> still 0 w.
Proof.
  assert (KP : forall g, optParm g -> ~ In 60 g -> still 0 g) by (intros g [|a H] N; [apply still_nil|exfalso; apply N; now left]).
  assert (KO : forall o, In o [str "="; str "/="; str "//="] -> still 0 o) by (intros o [<-|[<-|[<-|[]]]]; apply still_plain; repeat constructor).
  intros w [n g s o t a HI HP HS HO HT HA|n g s o t a HI HP HS HO HT HA] N; parts.
  - pose proof (proj1 types_still a HA). parts. stills; [now apply KP|apply KO; destruct HO as [<-|[<-|[]]]; simpl; auto].
  - pose proof (proj1 (proj2 (proj2 (proj2 (proj2 (proj2 (proj2 (proj2 types_still))))))) a HA). parts. stills; [now apply KP|apply KO; destruct HO as [<-|[<-|[]]]; simpl; auto].
Qed.

(** At the end of a text without generics the reader is outside of everything. *)
Theorem cddl_still : forall s, cddl s -> ~ In 60 s -> read_ (Code, 0, false) s = (Code, 0, false).
Proof.
  intros s [w r HW HR] N. parts. rewrite read_app, (space_still 0 w HW) by lia.
  assert (K : still 0 r); [|apply K; lia]. match goal with K : ~ In 60 r |- _ => revert K end. clear - HR. induction HR as [r s H HS|r s q H HS HQ IH]; intros N; parts; pose proof (rule_still r H); parts; stills.
Qed.

(** A text has at least one rule. *)
Theorem cddl_assign : forall s, cddl s -> In 61 s.
Proof.
  assert (KR : forall r, rule r -> In 61 r).
  { intros r [n g s o t a HI HP HS HO HT HA|n g s o t a HI HP HS HO HT HA]; apply in_or_app; right; apply in_or_app; right; apply in_or_app; right; apply in_or_app; left; destruct HO as [<-|[<-|[]]]; simpl; auto. }
  intros s [w r HW HR]. apply in_or_app. right. destruct HR; apply in_or_app; left; auto.
Qed.
