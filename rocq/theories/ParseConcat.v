(** Files of the grammar one after the other. *)
From Coq Require Import String.
From Verif Require Import Base Token Strconv Ext Lexer Ast Env Diag Parser ParseSpec.
Open Scope string_scope.
Open Scope list_scope.
Open Scope Z_scope.

(** ** Another token after an entry *)

(** Tokens that end an entry as EOF does. *)
Definition plainNext (t : token) : Prop := infixTok t = false /\ t <> INT /\ t <> FLOAT /\ t <> LPAREN /\ t <> RPAREN.

Definition offLine (ts : list tokInfo) (nx : tokInfo) : Prop := Forall (fun t => pLine (tPos t) <> pLine (tPos nx)) ts.

Lemma last_in : forall {A} (ts : list A) t, In (last ts t) (t :: ts).
Proof.
  intros A ts. induction ts as [|a [|b ts] IH]; intros t; [now left|right; now left|]. right. change (last (a :: b :: ts) t) with (last (b :: ts) t).
  replace (last (b :: ts) t) with (last (b :: ts) a); [apply IH|]. clear. revert b. induction ts as [|c ts IH]; intros b; [reflexivity|]. exact (IH c).
Qed.

Lemma offLine_last : forall ts t nx, offLine (t :: ts) nx -> ~ trailing (lastOf ts t) nx.
Proof. intros ts t nx H [_ K]. unfold offLine in H. rewrite Forall_forall in H. apply (H _ (last_in ts t)). exact K. Qed.

Lemma offLine_app : forall a b nx, offLine (a ++ b) nx -> offLine a nx /\ offLine b nx.
Proof. intros a b nx H. now apply Forall_app in H. Qed.

Lemma entry_next : forall X,
  (forall ts nx n tk, Entry X ts nx n tk -> tTok nx = EOF -> forall nx', plainNext (tTok nx') -> offLine ts nx' -> Entry X ts nx' n tk) /\
  (forall ts nx n tk, Nud X ts nx n tk -> tTok nx = EOF -> forall nx', plainNext (tTok nx') -> offLine ts nx' -> Nud X ts nx' n tk) /\
  (forall lst l ts nx n tk, Tail X lst l ts nx n tk -> tTok nx = EOF -> forall nx', plainNext (tTok nx') -> offLine ts nx' -> Tail X lst l ts nx' n tk) /\
  (forall ts nx ns tk, Entries X ts nx ns tk -> True).
Proof.
  intros X. apply (grammar_ind X
    (fun ts nx n tk => tTok nx = EOF -> forall nx', plainNext (tTok nx') -> offLine ts nx' -> Entry X ts nx' n tk)
    (fun ts nx n tk => tTok nx = EOF -> forall nx', plainNext (tTok nx') -> offLine ts nx' -> Nud X ts nx' n tk)
    (fun lst l ts nx n tk => tTok nx = EOF -> forall nx', plainNext (tTok nx') -> offLine ts nx' -> Tail X lst l ts nx' n tk)
    (fun ts nx ns tk => True)); auto.
  - (* E_intro *)
    intros cms t u tl nx n tk m tk' HC HN IN HT IT E nx' P O. apply offLine_app in O as [_ O]. apply offLine_app in O as [O1 O2].
    constructor 1 with (n := n); auto. destruct tl as [|x tl]; cbn [nextOf hd] in *; auto.
  - (* N_atom *)
    intros t nx n tk HA E nx' P _. constructor. rewrite E in HA. destruct P as [P _]. inversion HA; subst; try (constructor; auto; fail).
    + apply A_socket. intros K. rewrite K in P. discriminate P.
    + apply A_ref; auto. intros K. rewrite K in P. discriminate P.
  - intros. now apply N_group.
  - intros. now apply N_array.
  - intros. now apply N_map.
  - intros o e nx n tk HO HE IH E nx' P O. apply N_optional; auto. apply IH; auto. now inversion O.
  - intros o e nx n tk HO HE IH E nx' P O. apply N_unwrap; auto. apply IH; auto. now inversion O.
  - intros o e nx n tk HO HE IH E nx' P O. apply N_enum; auto. apply IH; auto. now inversion O.
  - intros o t e nx n up tk HO HU HE IH E nx' P O. apply N_star; auto. apply IH; auto. now inversion O.
  - intros o t e nx n up tk HO HU HE IH E nx' P O. apply N_plus; auto. apply IH; auto. now inversion O.
  - (* N_tag *)
    intros o num nx major number HO HL HT E nx' P O. destruct P as (P1 & P2 & P3 & P4 & P5). apply N_tag; auto. inversion HT; subst; econstructor; eauto.
  - (* N_tagged *)
    intros o num lp e nx nx1 close major number n tk HO HL HT HX HE IH HC E nx' P O. apply Forall_inv_tail, offLine_app in O as [_ O]. apply Forall_inv_tail, offLine_app in O as [O2 _].
    destruct HC as [[HC HR]|[HC HR]].
    + apply (N_tagged X o num lp e nx' nx1 close); auto. rewrite HC. reflexivity.
    + rewrite HC in HX. subst close. cbn [nextOf hd] in HX. subst nx1. eapply (N_tagged X o num lp e nx' nx' []); eauto. right. split; auto. apply P.
  - (* T_end *)
    intros lst l nx [HO|HO] E nx' P _; apply T_end; [now left|right; apply P].
  - intros. now apply T_comma.
  - intros lst l op t e nx v m tk tk' HL HE IH HI E nx' P O. eapply T_infix; eauto. apply IH; auto. now inversion O.
  - intros lst l op t e nx i v tk HL HO HK HE IH HT E nx' P O. inversion O as [|? ? _ O1]; subst. apply T_member; auto. now apply offLine_last.
  - intros lst l op t e c tl nx i v m tk tk' HL HO HK HE _ HT HTl IH E nx' P O. eapply T_memberComment; eauto. apply IH; auto.
    inversion O as [|? ? _ O1]; subst. change (t :: e ++ c :: tl) with ((t :: e) ++ c :: tl) in O1. apply offLine_app in O1 as [_ O1]. now inversion O1.
  - intros lst l op tl nx m tk HL HO HB HT IH E nx' P O. eapply T_noBound; eauto. apply IH; auto. now inversion O.
Qed.

(** ** Files one after the other *)

Definition isComment (n : node) : bool := match n with NComment _ | NCommentGroup _ => true | _ => false end.
Definition commented (n : node) : bool := match n with NRule _ _ _ (Some _) => true | _ => false end.

(** The first file does not end with the comment of a rule, nor with one before a comment. *)
Definition joinable (ra rb : list node) : Prop := commented (last ra NNil) = false /\ (isComment (last ra NNil) = true -> isComment (hd NNil rb) = false).

Lemma file_first : forall X ts eof rules tk defs, File X ts eof rules tk defs -> tTok eof = EOF ->
  plainNext (tTok (nextOf ts eof)) /\ (tTok (nextOf ts eof) = COMMENT <-> isComment (hd NNil rules) = true) /\ (ts = [] <-> rules = []).
Proof.
  intros X ts eof rules tk defs H E. unfold plainNext. inversion H; subst; cbn [nextOf hd app tTok].
  - rewrite E. cbn. repeat split; auto; discriminate.
  - match goal with K : Forall commentTok _ |- _ => apply Forall_inv in K; unfold commentTok in K; rewrite K end. cbn. repeat split; auto; try discriminate. now destruct cms.
  - cbn. repeat split; auto; discriminate.
  - cbn. repeat split; auto; discriminate.
Qed.

Theorem file_app : forall X ts eof ra tk da, File X ts eof ra tk da -> forall us eof' rb tk' db, File X us eof' rb tk' db -> tTok eof = EOF -> tTok eof' = EOF ->
  joinable ra rb -> offLine ts (nextOf us eof') -> File X (ts ++ us) eof' (ra ++ rb) (tk ++ tk') (da ++ db).
Proof.
  intros X ts eof ra tk da H us eof' rb tk' db HB E E'. destruct (file_first _ _ _ _ _ _ HB E') as (B1 & B2 & B3).
  induction H as [eof|c cms ts eof rules tk defs HC HN HF IH|p w a t e ts eof v rules tk tk1 defs HA HE HT HF IH|p w a t e c sw ts eof v rules tk tk1 defs HA HE HT HW HF IH]; intros J O.
  - exact HB.
  - destruct (file_first _ _ _ _ _ _ HF E) as (_ & A2 & A3).
    rewrite <- app_assoc. cbn [app]. change (c :: cms ++ ts ++ us) with ((c :: cms) ++ ts ++ us). apply offLine_app in O as [_ O]. apply F_comments; auto.
    + destruct ts as [|x ts]; [|exact HN]. rewrite (proj1 A3 eq_refl) in J. destruct J as [_ J]. intros K. cbn [app] in K. apply B2 in K.
      rewrite J in K; [discriminate K|]. cbn [last]. now destruct cms.
    + apply IH; auto. destruct ts as [|x ts]; [rewrite (proj1 A3 eq_refl); split; [reflexivity|discriminate]|]. destruct rules as [|r rules]; [now destruct A3 as [_ A3]; specialize (A3 eq_refl)|exact J].
  - destruct (file_first _ _ _ _ _ _ HF E) as (_ & A2 & A3).
    change ((mkTok IDENT p w :: a :: (t :: e) ++ ts) ++ us) with (mkTok IDENT p w :: a :: ((t :: e) ++ ts) ++ us). rewrite <- (app_assoc (t :: e)), <- (app_assoc tk), <- (app_assoc (defOf _ _ _)).
    apply Forall_inv_tail, Forall_inv_tail, (offLine_app (t :: e) ts) in O as [O2 O3]. cbn [app].
    apply F_rule; auto.
    + destruct ts as [|x ts]; [|exact HE]. cbn [app]. eapply (proj1 (entry_next X)); eauto.
    + destruct ts as [|x ts]; [|exact HT]. cbn [app]. now apply offLine_last.
    + apply IH; auto. destruct ts as [|x ts]; [rewrite (proj1 A3 eq_refl); split; [reflexivity|discriminate]|]. destruct rules as [|r rules]; [now destruct A3 as [_ A3]; specialize (A3 eq_refl)|exact J].
  - destruct (file_first _ _ _ _ _ _ HF E) as (_ & A2 & A3).
    destruct ts as [|x ts]; [rewrite (proj1 A3 eq_refl) in J; destruct J as [J _]; discriminate J|]. destruct HW as [HW|[_ HW]]; [|discriminate HW].
    change ((mkTok IDENT p w :: a :: (t :: e) ++ c :: sw ++ x :: ts) ++ us) with (mkTok IDENT p w :: a :: ((t :: e) ++ (c :: sw ++ x :: ts)) ++ us).
    rewrite <- (app_assoc (t :: e)). change ((c :: sw ++ x :: ts) ++ us) with (c :: (sw ++ x :: ts) ++ us). rewrite <- (app_assoc sw), <- (app_assoc tk), <- (app_assoc (defOf _ _ _)).
    apply Forall_inv_tail, Forall_inv_tail, (offLine_app (t :: e)) in O as [_ O]. apply Forall_inv_tail, offLine_app in O as [_ O3]. cbn [app].
    apply (F_ruleComment X p w a t e c sw ((x :: ts) ++ us)); auto. apply IH; auto. destruct rules as [|r rules]; [now destruct A3 as [_ A3]; specialize (A3 eq_refl)|exact J].
Qed.

(** ** The names of range bounds are checked *)

Definition known (tk : list task) (i : ident) : Prop := hd 0 (iName i) = 36 \/ exists p, In (TExists (iName i) p) tk.
Definition closed (tk : list task) : Prop := forall t i j, In (TIdentBound t i (NIdentifier j)) tk -> known tk i /\ known tk j.

Lemma known_l : forall a b i, known a i -> known (a ++ b) i.
Proof. intros a b i [K|[p K]]; [now left|right]. exists p. apply in_or_app. auto. Qed.
Lemma known_r : forall a b i, known b i -> known (a ++ b) i.
Proof. intros a b i [K|[p K]]; [now left|right]. exists p. apply in_or_app. auto. Qed.
Lemma closed_nil : closed [].
Proof. intros t i j []. Qed.
Lemma closed_app : forall a b, closed a -> closed b -> closed (a ++ b).
Proof.
  intros a b A B t i j H. apply in_app_or in H as [H|H]; [destruct (A _ _ _ H)|destruct (B _ _ _ H)]; auto using known_l, known_r.
Qed.

Lemma entry_closed : forall X,
  (forall ts nx n tk, Entry X ts nx n tk -> closed tk /\ forall j, n = NIdentifier j -> known tk j) /\
  (forall ts nx n tk, Nud X ts nx n tk -> closed tk /\ forall j, n = NIdentifier j -> (exists t, ts = [t] /\ tTok t = IDENT) /\ (tTok nx = COLON \/ known tk j)) /\
  (forall lst l ts nx m tk, Tail X lst l ts nx m tk -> forall T, closed T -> (forall j, l = NIdentifier j -> tTok lst = IDENT /\ (tTok (nextOf ts nx) = COLON \/ known T j)) ->
     closed (T ++ tk) /\ forall j, m = NIdentifier j -> known (T ++ tk) j) /\
  (forall ts nx ns tk, Entries X ts nx ns tk -> closed tk).
Proof.
  intros X. apply (grammar_ind X
    (fun ts nx n tk => closed tk /\ forall j, n = NIdentifier j -> known tk j)
    (fun ts nx n tk => closed tk /\ forall j, n = NIdentifier j -> (exists t, ts = [t] /\ tTok t = IDENT) /\ (tTok nx = COLON \/ known tk j))
    (fun lst l ts nx m tk => forall T, closed T -> (forall j, l = NIdentifier j -> tTok lst = IDENT /\ (tTok (nextOf ts nx) = COLON \/ known T j)) ->
       closed (T ++ tk) /\ forall j, m = NIdentifier j -> known (T ++ tk) j)
    (fun ts nx ns tk => closed tk)); try (intros; split; [tauto|discriminate]).
  - intros cms t u tl nx n tk m tk' HC HN [I1 I2] HT IT. apply IT; auto. intros j Hj. destruct (I2 _ Hj) as ((t0 & E & K) & D). injection E as -> ->. auto.
  - intros t nx n tk HA. inversion HA; subst; (split; [first [apply closed_nil | intros ? ? ? [K|[]]; discriminate K]|]); try discriminate; intros j [= <-]; cbn [iName]; (split; [eexists; split; [reflexivity|reflexivity]|]).
    + now left.
    + right. now left.
    + right. right. eexists. now left.
  - intros. split; [apply closed_nil|discriminate].
  - intros lst l nx HO T CT HL. rewrite app_nil_r. split; auto. intros j ->. destruct (HL j eq_refl) as [E [K|K]]; auto. cbn [nextOf hd] in K. destruct HO as [HO|HO]; [congruence|]. rewrite K in HO. discriminate HO.
  - intros lst l c nx HL HC T CT H. rewrite app_nil_r. split; auto. intros j ->. destruct (H j eq_refl) as [E [K|K]]; auto. cbn [nextOf hd] in K. congruence.
  - intros lst l op t e nx v m tk tk' HL HE [I1 I2] HI T CT H. cbn [nextOf hd] in H.
    assert (G : closed (T ++ tk)) by now apply closed_app.
    inversion HI; subst; rewrite ?app_nil_r; (split; [|discriminate]); auto.
    + intros k a b K. rewrite app_assoc in K. apply in_app_or in K as [K|K].
      * destruct (G _ _ _ K). rewrite app_assoc. auto using known_l.
      * destruct K as [K|[]]. injection K as <- <- ->. destruct (H i eq_refl) as [_ [D|D]]; [rewrite D in *; match goal with O : _ \/ _ |- _ => destruct O as [O|O]; discriminate O end|].
        split; [now apply known_l|]. apply known_r, known_l. now apply I2.
    + rewrite app_assoc. apply closed_app; auto. intros ? ? ? [K|[]]; discriminate K.
    + rewrite app_assoc. apply closed_app; auto. intros ? ? ? [K|[]]; discriminate K.
  - intros lst l op t e nx i v tk HL HO HK HE [I1 I2] HT T CT H. split; [now apply closed_app|discriminate].
  - intros lst l op t e c tl nx i v m tk tk' HL HO HK HE [I1 I2] HT HTl IH T CT H. rewrite app_assoc. apply IH; [now apply closed_app|discriminate].
  - intros lst l op tl nx m tk HL HO HB HT IH T CT H. apply IH; auto. discriminate.
  - intros. apply closed_nil.
  - intros e es c n ns tk tk' HE [I1 _] HS I2. now apply closed_app.
Qed.

Theorem file_closed : forall X ts eof rules tk defs, File X ts eof rules tk defs -> closed tk.
Proof.
  intros X ts eof rules tk defs H. destruct (entry_closed X) as [HE _]. induction H; auto using closed_nil; apply closed_app; auto; eapply HE; eauto.
Qed.
