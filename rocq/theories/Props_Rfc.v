(** Property C92: the language the parser accepts and the grammar of RFC 8610. *)
From Coq Require Import String.
From Verif Require Import Base Utf8 Token Ext Lexer LexSpec LexSpec2 Ast Env Diag Parser Doc DocText ParseTokens ParseSpec ParseSource Props_Lexer Props_Parser Props_Doc.
From Verif Require Rfc RfcProofs.
Open Scope string_scope.
Open Scope list_scope.
Open Scope Z_scope.

(** ** Specification *)

(** Documents (C16) that RFC 8610 has, as types, operands, entries of groups and so on. *)
Inductive place : Type := PType2 | PType | PTail | PBody | PEntry | PElem.
Definition place_eq_dec : forall a b : place, {a = b} + {a <> b}.
Proof. decide equality. Defined.

Definition rfcAtom (a : atom) : Prop :=
  match a with
  | AName w => Rfc.id w
  | AType t => In t typeToks
  | ABool _ => True
  | AInt w _ => Rfc.uint w
  | AFloat w _ => Rfc.number w
  | AText w => Rfc.Star Rfc.SCHAR w
  end.

Definition rfcKey (k : keyName) : Prop := match k with KName w => Rfc.id w | KNum w _ => Rfc.uint w end.

Definition inGroup (m : place) : Prop := In m [PEntry; PElem].

Definition printable (w : bytes) : Prop := Rfc.Star Rfc.PCHAR w.

(** Tags are left out: their parts must adjoin, which documents do not say. *)
Fixpoint rfc (m : place) (e : expr) : Prop :=
  match e with
  | XAtom a => rfcAtom a
  | XTag TgNone => True
  | XTag _ | XTagged _ _ => False
  | XBracket BGroup es => In m [PBody; PEntry; PElem] /\ rfcElems es
  | XBracket _ es => rfcElems es
  | XPrefix p e' =>
    match p with
    | PreUnwrap => exists w, e' = XAtom (AName w) /\ Rfc.id w
    | PreEnum => match e' with XAtom (AName w) => Rfc.id w | XBracket BGroup es => rfcElems es | _ => False end
    | _ => inGroup m /\ rfc PBody e'
    end
  | XInfix l o r =>
    match o with
    | OChoice false => m <> PType2 /\ rfc PType2 l /\ rfc PType r
    | OChoice true => m = PElem /\ rfc PEntry l /\ rfc PElem r
    | OTimes _ => False
    | OCompare t => m <> PType2 /\ m <> PTail /\ In t [LT; LE; GT; GE; EQ; NE] /\ rfc PType2 l /\ rfc PTail r
    | OSize | ORegexp | OBits | ORange _ => m <> PType2 /\ m <> PTail /\ rfc PType2 l /\ rfc PTail r
    end
  | XMember k _ v tc => In m [PBody; PEntry; PElem] /\ rfcKey k /\ rfc PType v /\ match tc with Some c => printable c | None => True end
  end
with rfcElems (es : elems) : Prop :=
  match es with
  | ENil => True
  | ECons lead e _ r => Forall printable lead /\ rfc PElem e /\ rfcElems r
  end.

Definition rfcRule (r : rule) : Prop :=
  Rfc.id (rName r) /\
  match rAssign r with
  | ASSIGN => rfc PType (rBody r) \/ rfc PEntry (rBody r)
  | TYPE_CHOICE_ASSIGN => rfc PType (rBody r)
  | GROUP_CHOICE_ASSIGN => rfc PEntry (rBody r)
  | _ => False
  end.

Definition rfcDoc (d : doc) : Prop :=
  dRules d <> [] /\ Forall (fun r => Forall printable (fst r) /\ rfcRule (snd r)) (dRules d) /\ Forall printable (dFinal d).

(** Sources of these lexemes, with spaces and newlines anywhere; comments end with a newline. *)
Definition gap (g : bytes) : Prop := Forall (fun c => c = 32 \/ c = 10) g.
Inductive Spelt : bytes -> list lexi -> Prop :=
| sl_nil g : gap g -> Spelt g []
| sl_comment g x rest xs : gap g -> xTok x = COMMENT -> Spelt rest xs -> Spelt (g ++ xText x ++ 10 :: rest) (x :: xs)
| sl_other g x rest xs : gap g -> xTok x <> COMMENT -> Spelt rest xs -> Spelt (g ++ xText x ++ rest) (x :: xs).

(** ** Texts of lexemes *)

Import Rfc.

(** The texts that are not comments, each with space after it. *)
Inductive Sp : list bytes -> bytes -> Prop :=
| sp_nil : Sp [] []
| sp_cons x s xs t : S_ s -> Sp xs t -> Sp (x :: xs) (x ++ s ++ t).

Definition words (xs : list lexi) : list bytes := map xText (filter (fun x => negb (teq (xTok x) COMMENT)) xs).

Lemma words_app : forall a b, words (a ++ b) = words a ++ words b.
Proof. intros a b. unfold words. now rewrite filter_app, map_app. Qed.
Lemma words_cons : forall x b, xTok x <> COMMENT -> words (x :: b) = xText x :: words b.
Proof. intros x b N. unfold words. cbn [filter]. unfold teq. destruct (token_eq_dec (xTok x) COMMENT); [contradiction|reflexivity]. Qed.
Lemma words_comment : forall x b, xTok x = COMMENT -> words (x :: b) = words b.
Proof. intros x b N. unfold words. cbn [filter]. unfold teq. destruct (token_eq_dec (xTok x) COMMENT); [reflexivity|contradiction]. Qed.

Lemma sp_app : forall a b t, Sp (a ++ b) t -> exists ta tb, t = ta ++ tb /\ Sp a ta /\ Sp b tb.
Proof.
  induction a as [|x a IH]; intros b t H; [exists [], t; repeat split; auto; constructor|]. cbn [app] in H. inversion H as [|? s ? t' HS HT]; subst.
  destruct (IH _ _ HT) as (ta & tb & -> & K1 & K2). exists (x ++ s ++ ta), tb. split; [now rewrite <- !app_assoc|]. split; auto. now constructor.
Qed.
Lemma sp_one : forall x xs t, Sp (x :: xs) t -> exists s t', t = x ++ s ++ t' /\ S_ s /\ Sp xs t'.
Proof. intros x xs t H. inversion H; subst. eauto. Qed.
Lemma sp_end : forall t, Sp [] t -> t = [].
Proof. intros t H. now inversion H. Qed.

Lemma s_app : forall a b, S_ a -> S_ b -> S_ (a ++ b).
Proof. intros a b HA HB. induction HA as [|x y HX HA IH]; auto. rewrite <- app_assoc. now constructor. Qed.
Lemma s_nil : S_ [].
Proof. constructor. Qed.
Lemma gap_s : forall g, gap g -> S_ g.
Proof. intros g H. induction H as [|c g [-> | ->] H IH]; [constructor|apply (star_cons _ [32]); auto; constructor|apply (star_cons _ [10]); auto; apply ws_crlf; constructor]. Qed.

(** A comment lexeme is a printable comment. *)
Definition okComment (x : lexi) : Prop := xTok x = COMMENT -> exists w, xText x = 59 :: w /\ printable w.

Lemma spelt_words : forall s xs, Spelt s xs -> Forall okComment xs -> exists g b, s = g ++ b /\ S_ g /\ Sp (words xs) b.
Proof.
  intros s xs H. induction H as [g H|g x rest xs H E HR IH|g x rest xs H E HR IH]; intros F.
  - exists g, []. rewrite app_nil_r. repeat split; auto using gap_s. constructor.
  - inversion F as [|? ? F1 F2]; subst. destruct (IH F2) as (g1 & b1 & -> & K1 & K2). destruct (F1 E) as (w & EW & PW). rewrite EW, words_comment by auto.
    exists (g ++ (59 :: w ++ [10]) ++ g1), b1. split; [cbn; rewrite <- !app_assoc; cbn; rewrite <- !app_assoc; reflexivity|]. split; auto.
    apply s_app; [now apply gap_s|]. apply star_cons; auto. apply ws_comment; auto. constructor.
  - inversion F as [|? ? F1 F2]; subst. destruct (IH F2) as (g1 & b1 & -> & K1 & K2). rewrite words_cons by auto.
    exists g, (xText x ++ g1 ++ b1). split; auto. split; [now apply gap_s|now constructor].
Qed.

(** ** Commas *)

Lemma lead_words : forall f l, words (leadLx f l) = [].
Proof. intros f [|c l]; [reflexivity|]. cbn [leadLx]. rewrite words_comment by reflexivity. induction l; auto. Qed.

Lemma words_first : forall x b, words (x :: b) = words [x] ++ words b.
Proof. intros x b. apply (words_app [x] b). Qed.

Lemma comma_words : forall e c, words (show e c) = words (show e false) ++ (if c then [[44]] else []).
Proof.
  assert (KC : forall c, words (commaLx c) = if c then [[44]] else []) by (intros []; reflexivity).
  induction e as [a|g|g e IH|b es IH|p e IH|l IHl o r IHr|k a v IH tc| |] using expr_mind with (P0 := fun _ => True); auto; intros c; cbn [show].
  - rewrite (words_first _ (commaLx c)), (words_first _ (commaLx false)), !KC, app_nil_r. reflexivity.
  - rewrite (words_first _ (tagLx g ++ _)), (words_first _ (tagLx g ++ commaLx false)), !words_app, !KC, app_nil_r. now rewrite app_assoc.
  - rewrite !app_comm_cons, !words_app, (words_first _ (commaLx c)), (words_first _ (commaLx false)), !KC, app_nil_r. now rewrite <- !app_assoc.
  - rewrite !app_comm_cons, !words_app, (words_first _ (commaLx c)), (words_first _ (commaLx false)), !KC, app_nil_r. now rewrite <- !app_assoc.
  - rewrite words_first, IH, (words_first _ (show e false)). now rewrite app_assoc.
  - rewrite !words_app, (words_first _ (show r c)), (words_first _ (show r false)), IHr. now rewrite <- !app_assoc.
  - assert (KT : words (match tc with Some c0 => [commentLx Same c0] | None => [] end) = []) by (destruct tc; reflexivity).
    rewrite (words_first (keyLx k)), (words_first (lx1 _)), words_app, KT, IH. rewrite (words_first (keyLx k) (_ :: show v false ++ _)), (words_first (lx1 _) (show v false ++ _)), words_app, KT. now rewrite !app_nil_r, <- !app_assoc.
Qed.

(** ** Types and groups *)

(** Entries without occurrence, and entries with choices between groups after them. *)
Inductive body : bytes -> Prop :=
| body_type k a : optKey k -> type a -> body (k ++ a)
| body_group s g t : S_ s -> group g -> S_ t -> body (40 :: s ++ g ++ t ++ [41]).
Inductive elem : bytes -> Prop :=
| elem_one a : grpent a -> elem a
| elem_more a s t b : grpent a -> S_ s -> S_ t -> elem b -> elem (a ++ s ++ 47 :: 47 :: t ++ b).
Inductive tail : bytes -> Prop :=
| tail_one a : type2 a -> tail a
| tail_more a s t b : type2 a -> S_ s -> S_ t -> type b -> tail (a ++ s ++ 47 :: t ++ b).

Definition texts (m : place) : bytes -> Prop :=
  match m with PType2 => type2 | PType => type | PTail => tail | PBody => body | PEntry => grpent | PElem => elem end.

Lemma body_entry : forall a, body a -> grpent a.
Proof. intros a [k t HK HT|s g t H1 H2 H3]; [apply (ge_type [])|apply (ge_group [])]; auto; constructor. Qed.
Lemma texts_body : forall m a, In m [PBody; PEntry; PElem] -> body a -> texts m a.
Proof. intros m a [<-|[<-|[<-|[]]]] H; cbn [texts]; auto using body_entry. apply elem_one, body_entry, H. Qed.
Lemma texts_type : forall m a, m <> PType2 -> m <> PTail -> type a -> texts m a.
Proof.
  intros m a N1 N2 H. assert (K : body a) by (apply (body_type []); auto; constructor). destruct m; cbn [texts]; auto using body_entry; try contradiction. apply elem_one, body_entry, K.
Qed.
Lemma texts_type2 : forall m a, type2 a -> texts m a.
Proof.
  intros m a H. assert (K : type a) by (constructor; now constructor). destruct m; try (apply texts_type; auto; discriminate); cbn [texts]; auto. now constructor.
Qed.
Lemma texts_entry : forall m a, inGroup m -> grpent a -> texts m a.
Proof. intros m a [<-|[<-|[]]] H; cbn [texts]; auto. now constructor. Qed.

Lemma elem_group : forall a c g, elem a -> optcom c -> group g -> group (a ++ c ++ g).
Proof.
  intros a c g H HC HG. induction H as [a H|a s t b H HS HT HE IH].
  - destruct HG as [g H1|g s t r H1 H2 H3 H4]; [constructor; now constructor|]. replace (a ++ c ++ g ++ s ++ 47 :: 47 :: t ++ r) with ((a ++ c ++ g) ++ s ++ 47 :: 47 :: t ++ r) by (now rewrite <- !app_assoc).
    apply group_more; auto. now constructor.
  - replace ((a ++ s ++ 47 :: 47 :: t ++ b) ++ c ++ g) with ((a ++ [] ++ []) ++ s ++ 47 :: 47 :: t ++ (b ++ c ++ g)) by (rewrite app_nil_r; rewrite <- !app_assoc; cbn [app]; rewrite <- !app_assoc; reflexivity).
    apply group_more; auto. apply gc_cons; auto; [apply oc_none; constructor|constructor].
Qed.

Lemma type_id : forall t, In t typeToks -> id (tokenName t).
Proof.
  intros t H.
  assert (K : forallb (fun t => match RfcProofs.ident (tokenName t) with [[]] => true | _ => false end) typeToks = true) by (vm_compute; reflexivity).
  rewrite forallb_forall in K. specialize (K t H). destruct (RfcProofs.ident (tokenName t)) as [|[|? ?] [|? ?]] eqn:E; try discriminate K.
  destruct (RfcProofs.ident_sound (tokenName t) []) as (w & HW & EW); [rewrite E; now left|]. rewrite app_nil_r in EW. congruence.
Qed.
Lemma name_type2 : forall w, id w -> type2 w.
Proof. intros w H. rewrite <- (app_nil_r w). apply type2_name; auto. constructor. Qed.

Lemma atom_type2 : forall a, rfcAtom a -> type2 (xText (atomLx a)).
Proof.
  intros [w|t|b|w v|w v|w] H; cbn [rfcAtom atomLx lx1 xText] in *.
  - now apply name_type2.
  - now apply name_type2, type_id.
  - destruct b; apply name_type2; (destruct (RfcProofs.ident_sound (tokenName TRUE) []) as (w & HW & EW); [now left|rewrite app_nil_r in EW; rewrite EW]) || idtac; auto.
    destruct (RfcProofs.ident_sound (tokenName FALSE) []) as (w & HW & EW); [now left|rewrite app_nil_r in EW; rewrite EW; auto].
  - apply type2_value, val_number, num_int, int_pos, H.
  - apply type2_value, val_number, H.
  - apply type2_value, val_text, H.
Qed.

Lemma atom_code : forall a, rfcAtom a -> xTok (atomLx a) <> COMMENT.
Proof. intros [w|t|[]|w v|w v|w] H; try discriminate. cbn [rfcAtom atomLx lx1 xTok] in *. intros ->. cbn in H. intuition discriminate. Qed.

Lemma words_lx : forall t b, t <> COMMENT -> words (lx1 t :: b) = tokenName t :: words b.
Proof. intros t b N. now rewrite words_cons. Qed.

(** Texts, with the space after them. *)
Definition reads_as (P : bytes -> Prop) (xs : list bytes) : Prop := forall t, Sp xs t -> exists a b, t = a ++ b /\ S_ b /\ P a.

Lemma ra_imp : forall (P Q : bytes -> Prop) xs, (forall a, P a -> Q a) -> reads_as P xs -> reads_as Q xs.
Proof. intros P Q xs I H t K. destruct (H t K) as (a & b & E & HS & HP). eauto 6. Qed.
Lemma ra_one : forall (P : bytes -> Prop) x, P x -> reads_as P [x].
Proof. intros P x H t K. apply sp_one in K. destruct K as (s & t' & -> & HS & K). apply sp_end in K. subst. exists x, s. rewrite app_nil_r. auto. Qed.
(** [x] and then [xs]. *)
Lemma ra_cons : forall (P Q : bytes -> Prop) x xs, reads_as P xs -> (forall s a, S_ s -> P a -> Q (x ++ s ++ a)) -> reads_as Q (x :: xs).
Proof.
  intros P Q x xs H I t K. apply sp_one in K. destruct K as (s & t' & -> & HS & K). destruct (H _ K) as (a & b & -> & HB & HA). exists (x ++ s ++ a), b. split; [now rewrite <- !app_assoc|]. auto.
Qed.
Lemma ra_app : forall (P Q R : bytes -> Prop) xs ys, reads_as P xs -> reads_as Q ys -> (forall a s b, P a -> S_ s -> Q b -> R (a ++ s ++ b)) -> reads_as R (xs ++ ys).
Proof.
  intros P Q R xs ys HX HY I t K. apply sp_app in K. destruct K as (ta & tb & -> & K1 & K2). destruct (HX _ K1) as (a & s & -> & HS & HA). destruct (HY _ K2) as (b & u & -> & HU & HB).
  exists (a ++ s ++ b), u. split; [now rewrite <- !app_assoc|]. auto.
Qed.

Lemma bracket_ra : forall o c xs (Q : bytes -> Prop), reads_as group xs -> (forall s g t, S_ s -> group g -> S_ t -> Q (o ++ s ++ g ++ t ++ c)) -> reads_as Q (o :: xs ++ [c]).
Proof.
  intros o c xs Q H I. apply (ra_cons (fun w => exists g t, group g /\ S_ t /\ w = g ++ t ++ c)).
  - apply (ra_app group (fun w => w = c)); auto; [now apply ra_one|]. intros a s b HA HS ->. exists a, s. auto.
  - intros s a HS (g & t & HG & HT & ->). now apply I.
Qed.

Lemma oper_text : forall t, In t [LT; LE; GT; GE; EQ; NE; SIZE; REGEXP; BITS; INCLUSIVE_BOUND; EXCLUSIVE_BOUND] -> rangeOrCtl (tokenName t) /\ t <> COMMENT.
Proof.
  assert (KI : forall w, match RfcProofs.ident w with [[]] => true | _ => false end = true -> rangeOrCtl (46 :: w)).
  { intros w H. destruct (RfcProofs.ident w) as [|[|? ?] [|? ?]] eqn:E; try discriminate H. destruct (RfcProofs.ident_sound w []) as (v & HW & EW); [rewrite E; now left|]. rewrite app_nil_r in EW. subst. now constructor. }
  intros t H. repeat (destruct H as [<-|H]; [split; [|discriminate]|]); [..|destruct H].
  all: match goal with |- rangeOrCtl (tokenName ?t) => first [exact rc_range2 | exact rc_range3 | exact (KI (List.tl (tokenName t)) eq_refl)] end.
Qed.

(** A group in parentheses. *)
Definition paren (w : bytes) : Prop := exists s g t, S_ s /\ group g /\ S_ t /\ w = 40 :: s ++ g ++ t ++ [41].

Lemma expr_ra : (forall e, (forall m, rfc m e -> reads_as (texts m) (words (show e false))) /\ forall es, e = XBracket BGroup es -> rfcElems es -> reads_as paren (words (show e false))) /\
  (forall es f, rfcElems es -> reads_as group (words (showElems f es))).
Proof.
  apply expr_elems_ind; try (intros; split; [|intros; discriminate]).
  - (* atoms *) intros m H. cbn [rfc show commaLx] in *. rewrite words_cons by (now apply atom_code). apply ra_one, texts_type2, atom_type2, H.
  - intros m H. destruct g as [|w v|a va b vb]; cbn [rfc] in H; try contradiction. apply ra_one, texts_type2, type2_any.
  - intros m [].
  - (* brackets *) intros b es IH. cbn [show commaLx].
    assert (KS : words (lx1 (opening b) :: showElems true es ++ [lx1 (closing b)]) = tokenName (opening b) :: words (showElems true es) ++ [tokenName (closing b)]).
    { rewrite words_lx by (destruct b; discriminate). rewrite words_app, words_lx by (destruct b; discriminate). reflexivity. }
    rewrite KS. split.
    + intros m H. destruct b; cbn [rfc] in H.
      * destruct H as [HM HE]. apply bracket_ra; auto. intros s g t HS HG HT. apply texts_body; auto. now apply body_group.
      * apply bracket_ra; auto. intros s g t HS HG HT. apply texts_type2. now apply type2_array.
      * apply bracket_ra; auto. intros s g t HS HG HT. apply texts_type2. now apply type2_map.
    + intros es' E HE. injection E as -> <-. apply bracket_ra; auto. intros s g t HS HG HT. exists s, g, t. auto.
  - (* prefixes *) intros m H0. rename H0 into HR. destruct H as [IH IHP]. cbn [show]. rewrite words_lx by (destruct p; discriminate).
    assert (KO : forall o, occur o -> inGroup m /\ rfc PBody e -> reads_as (texts m) (o :: words (show e false))).
    { intros o HO [HM HE]. apply (ra_cons body); [now apply (IH PBody)|]. intros s a HS HB. apply texts_entry; auto. rewrite app_assoc.
      destruct HB as [k a HK HA|s' g t' H1 H2 H3]; [apply ge_type|apply ge_group]; auto; now constructor. }
    destruct p; cbn [rfc] in HR.
    + apply KO; auto. constructor.
    + destruct HR as (w & -> & HW). apply (ra_cons id); [now apply ra_one|]. intros s a HS HA. apply texts_type2. rewrite <- (app_nil_r a). apply (type2_unwrap s a []); auto. constructor.
    + destruct e as [[w| | | | |]| | |[| |] es| | |]; try contradiction.
      * apply (ra_cons id); [now apply ra_one|]. intros s a HS HA. apply texts_type2. rewrite <- (app_nil_r a). apply (type2_enumName s a []); auto. constructor.
      * apply (ra_cons paren); [now apply (IHP es)|]. intros s a HS (s1 & g & s2 & H1 & H2 & H3 & ->). apply texts_type2. now apply (type2_enum s s1 g s2).
    + apply KO; auto. apply (occ_star [] []); auto.
    + apply KO; auto. constructor.
  - (* operators *) intros m HR. destruct H as [IHl _], H0 as [IHr _]. cbn [show]. rewrite words_app.
    assert (KO : forall t, opTok o = t -> In t [LT; LE; GT; GE; EQ; NE; SIZE; REGEXP; BITS; INCLUSIVE_BOUND; EXCLUSIVE_BOUND] -> m <> PType2 -> m <> PTail -> rfc PType2 l -> rfc PTail r ->
      reads_as (texts m) (words (show l false) ++ words (lx1 (opTok o) :: show r false))).
    { intros t -> HT N1 N2 HL HR'. destruct (oper_text t HT) as [HO NC]. rewrite words_lx by auto.
      apply (ra_app type2 (fun w => exists s b, S_ s /\ tail b /\ w = tokenName t ++ s ++ b)); [now apply (IHl PType2)| |].
      - apply (ra_cons tail); [now apply (IHr PTail)|]. intros s a HS HA. exists s, a. auto.
      - intros a s w HA HS (s1 & b & HS1 & HB & ->). apply texts_type; auto. destruct HB as [b HB|b s2 s3 c HB H2 H3 HC].
        + apply type_one. now apply type1_op.
        + replace (a ++ s ++ tokenName t ++ s1 ++ b ++ s2 ++ 47 :: s3 ++ c) with ((a ++ s ++ tokenName t ++ s1 ++ b) ++ s2 ++ 47 :: s3 ++ c) by (now rewrite <- !app_assoc).
          apply type_more; auto. now apply type1_op. }
    destruct o as [[]|t| | | |pl|[]]; cbn [rfc] in HR; try contradiction; try (apply (KO _ eq_refl); [simpl; tauto|tauto..]).
    + destruct HR as (-> & HL & HR). cbn [opTok]. rewrite words_lx by discriminate. apply (ra_app grpent (fun w => exists s b, S_ s /\ elem b /\ w = str "//" ++ s ++ b)); [now apply (IHl PEntry)| |].
      * apply (ra_cons elem); [now apply (IHr PElem)|]. intros s a HS HA. exists s, a. auto.
      * intros a s w HA HS (s1 & b & HS1 & HB & ->). now apply (elem_more a s s1 b).
    + destruct HR as (N & HL & HR). cbn [opTok]. rewrite words_lx by discriminate. apply (ra_app type2 (fun w => exists s b, S_ s /\ type b /\ w = str "/" ++ s ++ b)); [now apply (IHl PType2)| |].
      * apply (ra_cons type); [now apply (IHr PType)|]. intros s a HS HA. exists s, a. auto.
      * intros a s w HA HS (s1 & b & HS1 & HB & ->). destruct (place_eq_dec m PTail) as [->|NT]; [now apply (tail_more a s s1 b)|]. apply texts_type; auto. apply (type_more a s s1 b); auto. now constructor.
    + destruct HR as (N1 & N2 & HT & HL & HR). apply (KO t eq_refl); auto. simpl in HT |- *. tauto.
  - (* members *) intros m HR. destruct H as [IH _]. cbn [rfc] in HR. destruct HR as (HM & HK & HV & _). cbn [show].
    assert (KT : words (match tc with Some c0 => [commentLx Same c0] | None => [] end) = []) by (destruct tc; reflexivity).
    rewrite words_cons by (destruct k; discriminate). rewrite words_lx by (destruct arrow; discriminate). rewrite words_app, KT, app_nil_r.
    apply (ra_cons (fun w => exists s a, S_ s /\ type a /\ w = tokenName (if arrow then ARROW_MAP else COLON) ++ s ++ a)).
    + apply (ra_cons type); [now apply (IH PType)|]. intros s a HS HA. exists s, a. auto.
    + intros s w HS (s1 & a & HS1 & HA & ->). apply texts_body; auto.
      replace (xText (keyLx k) ++ s ++ tokenName (if arrow then ARROW_MAP else COLON) ++ s1 ++ a) with (((xText (keyLx k) ++ s ++ tokenName (if arrow then ARROW_MAP else COLON)) ++ s1) ++ a) by (now rewrite <- !app_assoc).
      apply body_type; auto. apply ok_some; auto.
      assert (KI : forall w, uint w -> value w) by (intros; now apply val_number, num_int, int_pos).
      destruct k as [w|w n], arrow; cbn [keyLx xText rfcKey] in *.
      * apply mk_arrow; auto. constructor. now apply name_type2.
      * now apply mk_bare.
      * apply mk_arrow; auto. constructor. apply type2_value. auto.
      * apply mk_value; auto.
  - intros f _ t K. apply sp_end in K. subst. exists [], []. split; auto. split; constructor. constructor.
  - intros lead e [IH _] comma r IHr f (_ & HE & HR). cbn [showElems]. rewrite !words_app, lead_words, comma_words. cbn [app].
    intros t K. apply sp_app in K. destruct K as (ta & tb & -> & K1 & K2). apply sp_app in K1. destruct K1 as (tc & td & -> & K1 & K3).
    destruct (IH PElem HE _ K1) as (a & s & -> & HS & HA). destruct (IHr false HR _ K2) as (g & u & -> & HU & HG).
    assert (HC : optcom (s ++ td)).
    { destruct comma; [apply sp_one in K3; destruct K3 as (s1 & t' & -> & HS1 & K3); apply sp_end in K3; subst; rewrite app_nil_r; now apply (oc_comma s s1)|apply sp_end in K3; subst; rewrite app_nil_r; now constructor]. }
    exists (a ++ (s ++ td) ++ g), u. split; [now rewrite <- !app_assoc|]. split; auto. now apply elem_group.
Qed.

Lemma rule_ra : forall r, rfcRule r -> reads_as Rfc.rule (words (showRule r)).
Proof.
  intros r [HI HB]. unfold showRule. rewrite words_cons by discriminate. cbn [xText].
  assert (NC : rAssign r <> COMMENT) by (intros E; rewrite E in HB; exact HB). rewrite words_lx by auto.
  destruct (proj1 expr_ra (rBody r)) as [HE _].
  assert (KT : forall m (P : bytes -> Prop), rfc m (rBody r) -> (forall a, texts m a -> P a) ->
    reads_as (fun w => exists s a, S_ s /\ P a /\ w = tokenName (rAssign r) ++ s ++ a) (tokenName (rAssign r) :: words (show (rBody r) false))).
  { intros m P H I. apply (ra_cons (texts m)); [now apply HE|]. intros s a HS HA. exists s, a. auto. }
  assert (KY : rfc PType (rBody r) -> In (tokenName (rAssign r)) [str "="; str "/="] -> reads_as Rfc.rule (rName r :: tokenName (rAssign r) :: words (show (rBody r) false))).
  { intros H HO. eapply (ra_cons _ _ (rName r) _ (KT PType type H (fun a K => K))). intros s w HS (s1 & a & HS1 & HA & ->). now apply (rule_type (rName r) [] s _ s1 a); auto; constructor. }
  assert (KG : rfc PEntry (rBody r) -> In (tokenName (rAssign r)) [str "="; str "//="] -> reads_as Rfc.rule (rName r :: tokenName (rAssign r) :: words (show (rBody r) false))).
  { intros H HO. eapply (ra_cons _ _ (rName r) _ (KT PEntry grpent H (fun a K => K))). intros s w HS (s1 & a & HS1 & HA & ->). now apply (rule_group (rName r) [] s _ s1 a); auto; constructor. }
  destruct (rAssign r) eqn:E; try contradiction; cbn in HB.
  - destruct HB as [HB|HB]; [apply KY|apply KG]; auto; simpl; auto.
  - apply KY; auto. simpl; auto.
  - apply KG; auto. simpl; auto.
Qed.

Lemma rules_text : forall rs final f t, rs <> [] -> Forall (fun r => rfcRule (snd r)) rs -> Sp (words (showRules f rs final)) t -> rules t.
Proof.
  induction rs as [|[lead r] rs IH]; intros final f t N F H; [congruence|]. inversion F as [|? ? F1 F2]; subst. cbn [snd showRules] in *.
  rewrite !words_app, lead_words in H. cbn [app] in H. apply sp_app in H. destruct H as (ta & tb & -> & H1 & H2). destruct (rule_ra r F1 _ H1) as (a & s & -> & HS & HA).
  destruct rs as [|x rs].
  - cbn [showRules] in H2. rewrite lead_words in H2. apply sp_end in H2. subst. rewrite app_nil_r. now constructor.
  - rewrite <- app_assoc. apply rules_more; auto. eapply IH; eauto. discriminate.
Qed.

(** Comments of the lexemes. *)
Definition okComments (xs : list lexi) : Prop := Forall okComment xs.
Lemma okc_other : forall x, xTok x <> COMMENT -> okComment x.
Proof. intros x N E. contradiction. Qed.
Lemma okc_lead : forall f l, Forall printable l -> okComments (leadLx f l).
Proof.
  intros f l H. destruct H as [|c l H HL]; [constructor|]. constructor; [intros _; exists c; auto|]. induction HL as [|x l HX HL IH]; constructor; auto. intros _. exists x. auto.
Qed.
Lemma okc_comma : forall c, okComments (commaLx c).
Proof. intros []; repeat constructor. now apply okc_other. Qed.

Lemma show_okc : (forall e m c, rfc m e -> okComments (show e c)) /\ (forall es f, rfcElems es -> okComments (showElems f es)).
Proof.
  apply expr_elems_ind.
  - intros a m c H. cbn [show]. constructor; [apply okc_other, atom_code, H|apply okc_comma].
  - intros g m c H. destruct g; cbn [rfc] in H; try contradiction. cbn [show tagLx app]. constructor; [now apply okc_other|apply okc_comma].
  - intros g e _ m c [].
  - intros b es IH m c H. cbn [show]. assert (HE : rfcElems es) by (destruct b; cbn [rfc] in H; tauto). constructor; [apply okc_other; destruct b; discriminate|]. apply Forall_app. split; [now apply IH|].
    constructor; [apply okc_other; destruct b; discriminate|apply okc_comma].
  - intros p e IH m c H. cbn [show]. constructor; [apply okc_other; destruct p; discriminate|].
    destruct p; cbn [rfc] in H; try (apply (IH PBody); tauto).
    + destruct H as (w & -> & HW). now apply (IH PType2).
    + destruct e as [[w| | | | |]| | |[| |] es| | |]; try contradiction; [now apply (IH PType2)|]. apply (IH PBody). cbn [rfc]. simpl. auto.
  - intros l IHl o r IHr m c H. cbn [show].
    assert (HH : xTok (lx1 (opTok o)) <> COMMENT /\ exists m1 m2, rfc m1 l /\ rfc m2 r).
    { destruct o as [[]|t| | | |pl|[]]; cbn [rfc] in H; try contradiction; try (split; [discriminate|exists PType2, PTail; tauto]).
      - split; [discriminate|exists PEntry, PElem; tauto].
      - split; [discriminate|exists PType2, PType; tauto].
      - destruct H as (_ & _ & HT & HL & HR). split; [|exists PType2, PTail; tauto]. cbn. intros ->. cbn in HT. intuition discriminate. }
    destruct HH as (HO & m1 & m2 & H1 & H2). apply Forall_app. split; [now apply (IHl m1)|]. constructor; [now apply okc_other|now apply (IHr m2)].
  - intros k a v IH tc m c H. cbn [rfc show] in *. destruct H as (_ & _ & HV & HT). constructor; [apply okc_other; destruct k; discriminate|]. constructor; [apply okc_other; destruct a; discriminate|].
    apply Forall_app. split; [now apply (IH PType)|]. destruct tc; constructor; [|constructor]. intros _. exists b. auto.
  - intros. constructor.
  - intros lead e IH comma r IHr f (HL & HE & HR). cbn [showElems]. apply Forall_app. split; [now apply okc_lead|]. apply Forall_app. split; [now apply (IH PElem)|now apply IHr].
Qed.

Lemma rules_okc : forall rs final f, Forall (fun r => Forall printable (fst r) /\ rfcRule (snd r)) rs -> Forall printable final -> okComments (showRules f rs final).
Proof.
  induction rs as [|[lead r] rs IH]; intros final f H HF; cbn [showRules]; [now apply okc_lead|]. inversion H as [|? ? [H1 H2] H3]; subst. cbn [fst snd] in *.
  apply Forall_app. split; [now apply okc_lead|]. apply Forall_app. split; [|now apply IH]. destruct H2 as [HI HB]. unfold showRule.
  constructor; [now apply okc_other|]. constructor; [apply okc_other; cbn; intros E; rewrite E in HB; exact HB|].
  destruct (rAssign r); try contradiction; [destruct HB as [HB|HB]|..]; eapply (proj1 show_okc); eauto.
Qed.

(** ** Theorems *)

(** Sources of such documents are CDDL. *)
Theorem C92_cddl : forall s d, rfcDoc d -> Spelt s (showDoc d) -> cddl s.
Proof.
  intros s d (N & HR & HF) HS. destruct (spelt_words s _ HS (rules_okc _ _ _ HR HF)) as (g & b & -> & HG & HB). constructor; auto.
  eapply rules_text; eauto. eapply Forall_impl; [|exact HR]. intros r [_ K]. exact K.
Qed.

(** The parser accepts them, as these documents, whatever the layout is. *)
Theorem C92_common : forall X s d ts eof p t2 l2, rfcDoc d -> wfDoc X d -> resolved [] d -> Spelt s (showDoc d) ->
  decodable s -> tokens X s ts eof -> scans X 2 (newLexer s) = Ok (t2, l2) -> errors l2 = [] -> Laid p ts (showDoc d) ->
  cddl s /\ parsesAs X s [] d.
Proof.
  intros X s d ts eof p t2 l2 HD HW HR HS D HT H2 HE HL. split; [eapply C92_cddl; eauto|]. eapply C16_any_layout; eauto. split; constructor.
Qed.

Lemma print_spelt : forall xs, Spelt (printFrom false xs) xs /\ exists r, printFrom true xs = 10 :: r /\ Spelt r xs.
Proof.
  induction xs as [|x xs [IH1 (r & IH2 & IH3)]]; cbn [printFrom].
  - split; [constructor; constructor; [now right|constructor]|]. exists []. split; auto. constructor. constructor.
  - assert (K : forall g, gap g -> Spelt (g ++ xText x ++ printFrom (teq (xTok x) COMMENT) xs) (x :: xs)).
    { intros g HG. unfold teq. destruct (token_eq_dec (xTok x) COMMENT) as [E|E]; [rewrite IH2|]; constructor; auto. }
    split; [destruct (xAt x); apply K; (constructor; [auto|constructor])|]. exists (xText x ++ printFrom (teq (xTok x) COMMENT) xs). split; auto. apply (K []). constructor.
Qed.

(** All of them have a source that both have. *)
Theorem C92_print : forall X d, rfcDoc d -> wfDoc X d -> resolved [] d -> cddl (printDoc d) /\ parsesAs X (printDoc d) [] d.
Proof.
  intros X d HD HW HR. split; [eapply C92_cddl; eauto; apply print_spelt|]. apply C16_round_trip; auto. split; constructor.
Qed.

(** ** Examples and refutations *)

(** <<
; people
person = { name: tstr, ? age: uint .size 2, friends: [* person ] }
kind = &( a: 1, b: 2 )
$ext /= "x y" / #
>> *)
Definition natural : doc := mkDoc
  [ ([str " people"], mkDRule (str "person") ASSIGN (XBracket BMap
      (ECons [] (nm "name" (ty TSTR) None) true
      (ECons [] (XPrefix PreOpt (nm "age" (XInfix (ty UINT) OSize (nu "2" 2)) None)) true
      (ECons [] (nm "friends" (XBracket BArray (ECons [] (XPrefix PreStar (rf "person")) false ENil)) None) false ENil)))));
    ([], mkDRule (str "kind") ASSIGN (XPrefix PreEnum (XBracket BGroup
      (ECons [] (nm "a" (nu "1" 1) None) true (ECons [] (nm "b" (nu "2" 2) None) false ENil)))));
    ([], mkDRule (str "$ext") TYPE_CHOICE_ASSIGN (XInfix (XAtom (AText (str "x y"))) (OChoice false) (XTag TgNone)))] [].
Definition naturalS : bytes := lines
  ["; people"; "person = { name: tstr, ? age: uint .size 2, friends: [* person ] }"; "kind = &( a: 1, b: 2 )"; "$ext /= ""x y"" / #"].

(** Deciding [Spelt] for the example. *)
Fixpoint skipGap (s : bytes) : bytes := match s with c :: r => if (c =? 32) || (c =? 10) then skipGap r else s | [] => [] end.
Fixpoint speltB (s : bytes) (xs : list lexi) : bool :=
  match xs with
  | [] => match skipGap s with [] => true | _ => false end
  | x :: xs' =>
    match RfcProofs.lit (xText x ++ if teq (xTok x) COMMENT then [10] else []) (skipGap s) with
    | [r] => speltB r xs'
    | _ => false
    end
  end.
Lemma skip_gap : forall s, exists g, gap g /\ s = g ++ skipGap s.
Proof.
  induction s as [|c s (g & IH1 & IH2)]; [exists []; split; auto; constructor|]. cbn [skipGap]. destruct ((c =? 32) || (c =? 10)) eqn:E.
  - exists (c :: g). split; [constructor; [lia|auto]|cbn; congruence].
  - exists []. split; auto. constructor.
Qed.
Lemma spelt_by : forall xs s, speltB s xs = true -> Spelt s xs.
Proof.
  induction xs as [|x xs IH]; intros s H; cbn [speltB] in H; destruct (skip_gap s) as (g & HG & E).
  - destruct (skipGap s); [|discriminate]. rewrite app_nil_r in E. subst. now constructor.
  - destruct (RfcProofs.lit _ (skipGap s)) as [|r [|]] eqn:F; try discriminate. assert (K : In r (RfcProofs.lit (xText x ++ if teq (xTok x) COMMENT then [10] else []) (skipGap s))) by (rewrite F; now left).
    apply RfcProofs.lit_sound in K. rewrite K in E. subst s. unfold teq. destruct (token_eq_dec (xTok x) COMMENT) as [N|N].
    + rewrite <- app_assoc. cbn [app]. constructor; auto.
    + rewrite app_nil_r. constructor; auto.
Qed.

Lemma id_by : forall w, match RfcProofs.ident w with [[]] => true | _ => false end = true -> id w.
Proof.
  intros w H. destruct (RfcProofs.ident w) as [|[|] [|]] eqn:E; try discriminate. destruct (RfcProofs.ident_sound w []) as (v & HV & ->); [rewrite E; now left|]. now rewrite app_nil_r.
Qed.
Lemma uint_by : forall c w, (49 <=? c) && (c <=? 57) && forallb (fun x => (48 <=? x) && (x <=? 57)) w = true -> uint (c :: w).
Proof. intros c w H. apply andb_true_iff in H. destruct H as [H1 H2]. apply uint_dec; [unfold DIGIT1; lia|]. rewrite forallb_forall in H2. apply Forall_forall. intros x K. apply H2 in K. unfold DIGIT. lia. Qed.
Lemma printable_by : forall w, forallb (fun x => (32 <=? x) && (x <=? 126)) w = true -> printable w.
Proof. induction w as [|c w IH]; intros H; [constructor|]. cbn [forallb] in H. apply andb_true_iff in H. destruct H as [H1 H2]. apply (star_cons _ [c]); [apply pchar_ascii; lia|now apply IH]. Qed.
Lemma schars_by : forall w, forallb (fun x => (32 <=? x) && (x <=? 126) && negb (x =? 34) && negb (x =? 92)) w = true -> Star SCHAR w.
Proof. induction w as [|c w IH]; intros H; [constructor|]. cbn [forallb] in H. apply andb_true_iff in H. destruct H as [H1 H2]. apply (star_cons _ [c]); [apply schar_ascii; lia|now apply IH]. Qed.

Lemma natural_rfc : rfcDoc natural.
Proof.
  unfold rfcDoc, natural, nm, rf, ty, nu. cbn [dRules dFinal]. split; [discriminate|]. split; [|constructor].
  repeat (cbn [fst snd rfc rfcElems rfcAtom rfcKey rfcRule rName rAssign rBody]; match goal with
    | |- _ /\ _ => split
    | |- True => exact I
    | |- Forall _ [] => constructor
    | |- Forall _ (_ :: _) => constructor
    | |- rfcRule _ => unfold rfcRule; cbn [rName rAssign rBody]
    | |- id _ => apply id_by; vm_compute; reflexivity
    | |- uint _ => apply uint_by; vm_compute; reflexivity
    | |- printable _ => apply printable_by; vm_compute; reflexivity
    | |- Star SCHAR _ => apply schars_by; vm_compute; reflexivity
    | |- inGroup _ => unfold inGroup
    | |- In _ _ => simpl; tauto
    | |- _ <> _ => discriminate
    | |- _ \/ _ => left
    end).
Qed.

Lemma natural_wf : wfDoc X1 natural.
Proof. unfold wfDoc, natural, nm, rf, ty, nu. cbn [dRules dFinal]. wf_by. Qed.

Definition naturalTs : list tokInfo := match scans X1 (S (length (showDoc natural))) (newLexer naturalS) with Ok (ts, _) => ts | _ => [] end.

Example C92_ex : exists ts eof p t2 l2, rfcDoc natural /\ wfDoc X1 natural /\ resolved [] natural /\ Spelt naturalS (showDoc natural) /\
  decodable naturalS /\ tokens X1 naturalS ts eof /\ scans X1 2 (newLexer naturalS) = Ok (t2, l2) /\ errors l2 = [] /\ Laid p ts (showDoc natural).
Proof.
  assert (D : decodable naturalS) by (apply good_by_ascii; vm_compute; reflexivity).
  exists (removelast naturalTs), (last naturalTs zeroTok), (mkTok EOF (mkPos [] 0 0 0) []). do 2 eexists.
  split; [exact natural_rfc|]. split; [exact natural_wf|]. split.
  { split.
    - vm_compute. repeat (constructor; [simpl; intuition discriminate|]). constructor.
    - intros w Hw. right. vm_compute in Hw |- *. intuition. }
  split; [apply spelt_by; vm_compute; reflexivity|]. split; [exact D|].
  split; [eapply tokens_by_scans; [exact D|vm_compute; reflexivity|vm_compute; reflexivity|vm_compute; reflexivity]|].
  split; [vm_compute; reflexivity|]. split; [reflexivity|].
  vm_compute. repeat (apply Laid_cons; [reflexivity|reflexivity|vm_compute; (exact I || reflexivity || discriminate)|]). constructor.
Qed.

(** *** Texts of RFC 8610 that the parser refuses *)
Definition acceptsB (s : bytes) : bool := match parse X1 s with Ok ((Some _, None), _) => true | _ => false end.

(** In turn: names of the prelude, a negative number, a byte string, generics, a text as key, an
    exponent, a cut, a type as key, other controls, an escaped quote, a control on a rule of its
    own, a hexadecimal float, and so on. *)
Definition refusedTexts : list string :=
  [ "x = any"; "x = time"; "x = -1"; "x = h'00'"; "x<t> = [ t ]"; "x = { ""a"": int }"; "x = 1.5e3"; "x = { int ^ => tstr }"; "x = { int => tstr }";
    "x = int .default 1"; "x = ""a\""b"""; "x = int .size 2"; "x = 0x1p2"; "x = { * tstr => int }"; "x = uint .and 3"; "x = (int / tstr) .size 3"; "x = -1..5";
    "x = 1 .. x"; "x = bstr .cbor int"; "x = { -1 => int }" ].

Theorem C92_complete_refuted : Forall (fun w => cddl (lines [w]) /\ forall root p', parse X1 (lines [w]) <> Ok ((Some root, None), p')) refusedTexts /\
  length refusedTexts = 20%nat.
Proof.
  split; [|reflexivity].
  assert (K : forall w, acceptsB (lines [w]) = false -> forall root p', parse X1 (lines [w]) <> Ok ((Some root, None), p')).
  { intros w H root p' E. unfold acceptsB in H. rewrite E in H. discriminate. }
  repeat (apply Forall_cons; [split; [apply RfcProofs.cddl_by; vm_compute; reflexivity|apply K; vm_compute; reflexivity]|]). apply Forall_nil.
Qed.

(** *** Texts that it accepts and that are none of RFC 8610 *)

(** Nothing, only a comment, a tab, an open string, a comment up to the end of the file, an open
    bracket, a comma between rules. *)
Definition acceptedTexts : list bytes :=
  [ []; lines ["; c"]; str "x =" ++ [9] ++ lines ["int"]; lines ["x = ""abc"]; str "x = int ; c"; lines ["x = #6.1(int"]; lines ["x = int, y = int"] ].

Theorem C92_sound_refuted : Forall (fun s => ~ cddl s /\ exists root p', parse X1 s = Ok ((Some root, None), p')) acceptedTexts /\ length acceptedTexts = 7%nat.
Proof.
  split; [|reflexivity].
  assert (K1 : forall s, existsb (Z.eqb 61) s = false -> ~ cddl s).
  { intros s H K. apply RfcProofs.cddl_assign in K. assert (existsb (Z.eqb 61) s = true) by (apply existsb_exists; exists 61; split; auto). congruence. }
  assert (K2 : forall s, existsb (Z.eqb 60) s = false -> match RfcProofs.read_ (RfcProofs.Code, 0, false) s with (RfcProofs.Code, 0, false) => false | _ => true end = true -> ~ cddl s).
  { intros s H R K. apply RfcProofs.cddl_still in K; [rewrite K in R; discriminate|]. intros I. assert (existsb (Z.eqb 60) s = true) by (apply existsb_exists; exists 60; split; auto). congruence. }
  assert (K : forall s, acceptsB s = true -> exists root p', parse X1 s = Ok ((Some root, None), p')).
  { intros s H. unfold acceptsB in H. destruct (parse X1 s) as [[[[root|] [d|]] p']| | |]; try discriminate. eauto. }
  repeat (apply Forall_cons; [split; [first [apply K1; vm_compute; reflexivity|apply K2; vm_compute; reflexivity]|apply K; vm_compute; reflexivity]|]). apply Forall_nil.
Qed.
