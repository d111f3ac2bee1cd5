(** Property C94: how the parser groups operators, and how RFC 8610 does. *)
From Coq Require Import String.
From Verif Require Import Base Utf8 Token Ext Lexer LexSpec LexSpec2 Ast Env Diag Parser Doc DocText ParseSpec ParseSource Props_Lexer Props_Parser Props_Doc Props_Forget.
Open Scope string_scope.
Open Scope list_scope.
Open Scope Z_scope.

(** ** Specification *)

(** A lexeme: its token and text. Commas and comments are left out. *)
Definition word : Type := token * bytes.
Definition wd (t : token) : word := (t, tokenName t).
Definition bare (xs : list lexi) : list word :=
  map (fun x => (xTok x, xText x)) (filter (fun x => negb (teq (xTok x) COMMENT || teq (xTok x) COMMA)) xs).

(** *** The structure of CDDL, RFC 8610 appendix B

    The levels of the grammar are types of their own, so an operator is always where the RFC has
    it: [type = type1 *("/" type1)], [type1 = type2 [(rangeop / ctlop) type2]],
    [group = grpchoice *("//" grpchoice)], [grpchoice = *(grpent optcom)]. Generics, cuts and
    types as keys are left out. *)
Inductive rtype : Type := TOne (t : rtype1) | TOr (t : rtype1) (r : rtype)
with rtype1 : Type := TPlain (t : rtype2) | TOp (a : rtype2) (o : word) (b : rtype2)
with rtype2 : Type :=
| TAtom (w : word)                             (* value, typename, # *)
| TTag (ws : list word) (t : option rtype)     (* #6.1(type), #6.1 *)
| TParen (t : rtype)                           (* (type) *)
| TBrack (b : bracket) (g : rgroup)            (* {group}, [group] *)
| TUnwrap (w : word)                           (* ~typename *)
| TEnum (g : rgroup)                           (* &(group) *)
| TEnumName (w : word)                         (* &groupname *)
with rgroup : Type := GOne (c : rchoice) | GOr (c : rchoice) (g : rgroup)
with rchoice : Type := CNil | CCons (x : rent) (c : rchoice)
with rent : Type := Ent (occ : option (list word)) (b : rbody)
with rbody : Type :=
| BType (t : rtype)                            (* type, groupname *)
| BKey (k a : word) (t : rtype)                (* memberkey type *)
| BGrp (g : rgroup).                           (* (group) *)

Fixpoint unT (t : rtype) : list word := match t with TOne a => un1 a | TOr a r => un1 a ++ wd TYPE_CHOICE :: unT r end
with un1 (t : rtype1) : list word := match t with TPlain a => un2 a | TOp a o b => un2 a ++ o :: un2 b end
with un2 (t : rtype2) : list word :=
  match t with
  | TAtom w => [w]
  | TTag ws None => wd HASH :: ws
  | TTag ws (Some t) => wd HASH :: ws ++ wd LPAREN :: unT t ++ [wd RPAREN]
  | TParen t => wd LPAREN :: unT t ++ [wd RPAREN]
  | TBrack b g => wd (opening b) :: unG g ++ [wd (closing b)]
  | TUnwrap w => [wd UNWRAP; w]
  | TEnum g => wd AMPERSAND :: wd LPAREN :: unG g ++ [wd RPAREN]
  | TEnumName w => [wd AMPERSAND; w]
  end
with unG (g : rgroup) : list word := match g with GOne c => unC c | GOr c g => unC c ++ wd GROUP_CHOICE :: unG g end
with unC (c : rchoice) : list word := match c with CNil => [] | CCons x c => unE x ++ unC c end
with unE (x : rent) : list word := match x with Ent None b => unB b | Ent (Some o) b => o ++ unB b end
with unB (b : rbody) : list word :=
  match b with
  | BType t => unT t
  | BKey k a t => k :: a :: unT t
  | BGrp g => wd LPAREN :: unG g ++ [wd RPAREN]
  end.

(** *** Operations on structures *)

(** A parenthesised type is a group of one entry. *)
Definition asType (x : rent) : option rtype :=
  match x with
  | Ent None (BType t) => Some t
  | Ent None (BGrp (GOne (CCons (Ent None (BType t)) CNil))) => Some (TOne (TPlain (TParen t)))
  | _ => None
  end.
Definition asType2 (x : rent) : option rtype2 := match asType x with Some (TOne (TPlain u)) => Some u | _ => None end.

Definition entOf (u : rtype2) : rent := Ent None (BType (TOne (TPlain u))).

Definition occEnt (o : list word) (x : rent) : option rent := match x with Ent None b => Some (Ent (Some o) b) | _ => None end.
Definition keyEnt (k a : word) (x : rent) : option rent := option_map (fun t => Ent None (BKey k a t)) (asType x).
Definition orEnt (u : rtype2) (x : rent) : option rent := option_map (fun t => Ent None (BType (TOr (TPlain u) t))) (asType x).

Definition atomEx (e : expr) : option rent :=
  match e with
  | XAtom a => Some (entOf (TAtom (xTok (atomLx a), xText (atomLx a))))
  | XTag g => Some (entOf (TTag (bare (tagLx g)) None))
  | _ => None
  end.
Definition tagEnt (g : tagno) (x : rent) : option rent := option_map (fun t => entOf (TTag (bare (tagLx g)) (Some t))) (match x with Ent None (BType t) => Some t | _ => None end).
Definition brackEnt (b : bracket) (g : rgroup) : rent := match b with BGroup => Ent None (BGrp g) | _ => entOf (TBrack b g) end.

(** Left operands, as in [n * x] and [t op x]. *)
Definition occOf (p : prefix) : list word := [wd (preTok p)].

(** *** What RFC 8610 says

    An operator takes what is next to it; so a lexeme is joined with the first entry of what
    follows. [rfcChain e g] is the group of the lexemes of [e] followed by those of [g]. *)
Definition consG (x : rent) (g : rgroup) : rgroup := match g with GOne c => GOne (CCons x c) | GOr c h => GOr (CCons x c) h end.
Definition onFirst (f : rent -> option rent) (g : rgroup) : option rgroup :=
  match g with
  | GOne (CCons x c) => option_map (fun y => GOne (CCons y c)) (f x)
  | GOr (CCons x c) h => option_map (fun y => GOr (CCons y c) h) (f x)
  | _ => None
  end.

(** To the first operand of a type. *)
Definition on2 (f : rtype2 -> option rtype2) (t : rtype) : option rtype :=
  match t with
  | TOne (TPlain u) => option_map (fun v => TOne (TPlain v)) (f u)
  | TOne (TOp u o w) => option_map (fun v => TOne (TOp v o w)) (f u)
  | TOr (TPlain u) r => option_map (fun v => TOr (TPlain v) r) (f u)
  | TOr (TOp u o w) r => option_map (fun v => TOr (TOp v o w) r) (f u)
  end.
Definition unwrap2 (u : rtype2) : option rtype2 := match u with TAtom (IDENT, w) => Some (TUnwrap (IDENT, w)) | _ => None end.
Definition enum2 (u : rtype2) : option rtype2 :=
  match u with
  | TAtom (IDENT, w) => Some (TEnumName (IDENT, w))
  | TParen t => Some (TEnum (GOne (CCons (Ent None (BType t)) CNil)))
  | _ => None
  end.
Definition rfcUnwrap (x : rent) : option rent := match x with Ent None (BType t) => option_map (fun u => Ent None (BType u)) (on2 unwrap2 t) | _ => None end.
Definition rfcEnum (x : rent) : option rent :=
  match x with
  | Ent None (BType t) => option_map (fun u => Ent None (BType u)) (on2 enum2 t)
  | Ent None (BGrp g) => Some (entOf (TEnum g))
  | _ => None
  end.
Definition rfcOp (u : rtype2) (o : word) (x : rent) : option rent :=
  match asType x with
  | Some (TOne (TPlain v)) => Some (Ent None (BType (TOne (TOp u o v))))
  | Some (TOr (TPlain v) r) => Some (Ent None (BType (TOr (TOp u o v) r)))
  | _ => None
  end.
Definition rfcOr (x : rent) (g : rgroup) : option rgroup := match g with GOne CNil | GOr CNil _ => None | _ => Some (GOr (CCons x CNil) g) end.

Definition soleEnt (g : rgroup) : option rent := match g with GOne (CCons x CNil) => Some x | _ => None end.
Definition bind {A B} (a : option A) (f : A -> option B) : option B := match a with Some x => f x | None => None end.

Definition isInt (x : expr) : option word := match x with XAtom (AInt w _) => Some (INT, w) | _ => None end.

Fixpoint rfcChain (e : expr) (g : rgroup) : option rgroup :=
  match e with
  | XAtom _ | XTag _ => option_map (fun x => consG x g) (atomEx e)
  | XTagged t e' => bind (rfcChain e' (GOne CNil)) (fun h => bind (soleEnt h) (fun x => option_map (fun y => consG y g) (tagEnt t x)))
  | XBracket b es => option_map (fun h => consG (brackEnt b h) g) (rfcElems es)
  | XPrefix PreUnwrap e' => bind (rfcChain e' g) (onFirst rfcUnwrap)
  | XPrefix PreEnum e' => bind (rfcChain e' g) (onFirst rfcEnum)
  | XPrefix p e' => bind (rfcChain e' g) (onFirst (occEnt (occOf p)))
  | XMember k a v _ => bind (rfcChain v g) (onFirst (keyEnt (xTok (keyLx k), xText (keyLx k)) (wd (if a then ARROW_MAP else COLON))))
  | XInfix l o r =>
    bind (rfcChain l (GOne CNil)) (fun h => bind (soleEnt h) (fun x => bind (rfcChain r g) (fun q =>
      match o with
      | OChoice true => rfcOr x q
      | OChoice false => bind (asType2 x) (fun u => onFirst (orEnt u) q)
      | OTimes false => bind (isInt l) (fun n => onFirst (occEnt [n; wd ZERO_OR_MORE]) q)
      | OTimes true => None
      | _ => bind (asType2 x) (fun u => onFirst (rfcOp u (wd (opTok o))) q)
      end)))
  end
with rfcElems (es : elems) : option rgroup :=
  match es with
  | ENil => Some (GOne CNil)
  | ECons _ e _ r => bind (rfcElems r) (rfcChain e)
  end.

(** *** What the tree says

    The operands of a node are its children. Where the RFC wants something smaller, the child is
    put in parentheses. *)
Definition wrap (g : rgroup) : rent := match soleEnt g with Some x => x | None => Ent None (BGrp g) end.
Definition join (l : list rgroup) : rgroup := match l with [g] => g | _ => GOne (fold_right (fun g c => CCons (wrap g) c) CNil l) end.

Definition treeUnwrap (x : rent) : option rent := match asType x with Some (TOne (TPlain u)) => option_map entOf (unwrap2 u) | _ => None end.
Definition treeEnum (x : rent) : option rent :=
  match x with
  | Ent None (BGrp g) => Some (entOf (TEnum g))
  | Ent None (BType (TOne (TPlain (TAtom (IDENT, w))))) => Some (entOf (TEnumName (IDENT, w)))
  | _ => None
  end.
Definition treeOp (u : rtype2) (o : word) (x : rent) : option rent :=
  match asType x with
  | Some (TOne (TPlain v)) => Some (Ent None (BType (TOne (TOp u o v))))
  | Some t => Some (Ent None (BType (TOne (TOp u o (TParen t)))))
  | None => None
  end.

Definition one (x : rent) : rgroup := GOne (CCons x CNil).

Fixpoint treeOf (e : expr) : option rgroup :=
  match e with
  | XAtom _ | XTag _ => option_map one (atomEx e)
  | XTagged t e' => bind (treeOf e') (fun h => option_map one (tagEnt t (wrap h)))
  | XBracket b es => option_map (fun l => one (brackEnt b (join l))) (treeElems es)
  | XPrefix PreUnwrap e' => bind (treeOf e') (fun h => option_map one (treeUnwrap (wrap h)))
  | XPrefix PreEnum e' => bind (treeOf e') (fun h => option_map one (treeEnum (wrap h)))
  | XPrefix p e' => bind (treeOf e') (fun h => option_map one (occEnt (occOf p) (wrap h)))
  | XMember k a v _ => bind (treeOf v) (fun h => option_map one (keyEnt (xTok (keyLx k), xText (keyLx k)) (wd (if a then ARROW_MAP else COLON)) (wrap h)))
  | XInfix l o r =>
    bind (treeOf l) (fun h => bind (treeOf r) (fun q =>
      match o with
      | OChoice true => Some (GOr (CCons (wrap h) CNil) q)
      | OChoice false => bind (asType2 (wrap h)) (fun u => option_map one (orEnt u (wrap q)))
      | OTimes false => bind (isInt l) (fun n => option_map one (occEnt [n; wd ZERO_OR_MORE] (wrap q)))
      | OTimes true => None
      | _ => bind (asType2 (wrap h)) (fun u => option_map one (treeOp u (wd (opTok o)) (wrap q)))
      end))
  end
with treeElems (es : elems) : option (list rgroup) :=
  match es with
  | ENil => Some []
  | ECons _ e _ r => bind (treeOf e) (fun g => option_map (cons g) (treeElems r))
  end.

(** *** Where they agree *)

Definition infix (e : expr) : bool := match e with XInfix _ (OTimes _) _ => false | XInfix _ _ _ => true | _ => false end.

(** No operator within the operands of [~] and [&] or in the right operand of a control or range;
    group choices only in the only element of a bracket ([sole]). *)
Fixpoint calm (sole : bool) (e : expr) : bool :=
  match e with
  | XAtom _ | XTag _ => true
  | XTagged _ e' => calm false e'
  | XBracket _ es => calmElems true es
  | XPrefix p e' => calm false e' && match p with PreUnwrap | PreEnum => negb (infix e') | _ => true end
  | XMember _ _ v _ => calm false v
  | XInfix l o r =>
    calm false l &&
    match o with
    | OChoice true => sole && calm true r
    | OChoice false | OTimes _ => calm false r
    | _ => calm false r && negb (infix r)
    end
  end
with calmElems (first : bool) (es : elems) : bool :=
  match es with
  | ENil => true
  | ECons _ e _ r => calm (first && match r with ENil => true | _ => false end) e && calmElems false r
  end.

(** *** Documents: names, assignments and entries *)
Definition structure : Type := list (word * word * rent).
Definition unparse (d : structure) : list word := flat_map (fun r => fst (fst r) :: snd (fst r) :: unE (snd r)) d.

Fixpoint all {A B} (f : A -> option B) (l : list A) : option (list B) :=
  match l with [] => Some [] | a :: r => bind (f a) (fun b => option_map (cons b) (all f r)) end.

Definition ruleOf (f : expr -> option rent) (r : rule) : option (word * word * rent) :=
  option_map (fun x => ((IDENT, rName r), wd (rAssign r), x)) (f (rBody r)).
Definition rfcReading (d : doc) : option structure := all (fun r => ruleOf (fun e => bind (rfcChain e (GOne CNil)) soleEnt) (snd r)) (dRules d).
Definition treeReading (d : doc) : option structure := all (fun r => ruleOf (fun e => option_map wrap (treeOf e)) (snd r)) (dRules d).
Definition plainDoc (d : doc) : bool := forallb (fun r => calm false (rBody (snd r))) (dRules d).

(** ** The lexemes of structures *)

Lemma bare_app : forall a b, bare (a ++ b) = bare a ++ bare b.
Proof. intros a b. unfold bare. now rewrite filter_app, map_app. Qed.
Lemma bare_cons : forall x b, xTok x <> COMMENT -> xTok x <> COMMA -> bare (x :: b) = (xTok x, xText x) :: bare b.
Proof. intros x b N N'. unfold bare. cbn [filter]. unfold teq. destruct (token_eq_dec (xTok x) COMMENT); [contradiction|]. destruct (token_eq_dec (xTok x) COMMA); [contradiction|reflexivity]. Qed.
Lemma bare_lx : forall t b, t <> COMMENT -> t <> COMMA -> bare (lx1 t :: b) = wd t :: bare b.
Proof. intros t b N N'. now rewrite bare_cons. Qed.
Lemma bare_comma : forall c, bare (commaLx c) = [].
Proof. now intros []. Qed.
Lemma bare_lead : forall f l, bare (leadLx f l) = [].
Proof. intros f [|c l]; auto. cbn. induction l; auto. Qed.

(** Operations that put words before an entry. *)
Definition puts (w : list word) (f : rent -> option rent) : Prop := forall x y, f x = Some y -> unE y = w ++ unE x.

Lemma asType_un : forall x t, asType x = Some t -> unE x = unT t.
Proof.
  intros [[o|] b] t H; [discriminate|]. destruct b as [t'|k a t'|[[|[[o|] [t'|k a t'|g]] [|]]|]]; try discriminate; injection H as <-; cbn; rewrite ?app_nil_r; reflexivity.
Qed.
Lemma asType2_un : forall x u, asType2 x = Some u -> unE x = un2 u.
Proof. intros x u H. unfold asType2 in H. destruct (asType x) as [[[v|]|]|] eqn:E; try discriminate. injection H as <-. now rewrite (asType_un _ _ E). Qed.
Lemma occ_puts : forall o, puts o (occEnt o).
Proof. intros o [[|] b] y H; [discriminate|]. now injection H as <-. Qed.
Lemma key_puts : forall k a, puts [k; a] (keyEnt k a).
Proof. intros k a x y H. unfold keyEnt in H. destruct (asType x) eqn:E; [|discriminate]. injection H as <-. now rewrite (asType_un _ _ E). Qed.
Lemma or_puts : forall u, puts (un2 u ++ [wd TYPE_CHOICE]) (orEnt u).
Proof. intros u x y H. unfold orEnt in H. destruct (asType x) eqn:E; [|discriminate]. injection H as <-. rewrite (asType_un _ _ E). cbn. now rewrite <- app_assoc. Qed.
Lemma op_puts : forall u o, puts (un2 u ++ [o]) (rfcOp u o).
Proof.
  intros u o x y H. unfold rfcOp in H. destruct (asType x) as [[[v|]|[v|] r]|] eqn:E; try discriminate; injection H as <-; rewrite (asType_un _ _ E); cbn; rewrite <- ?app_assoc; cbn; rewrite <- ?app_assoc; reflexivity.
Qed.
Lemma on2_puts : forall (w : word) f t t', (forall u v, f u = Some v -> un2 v = w :: un2 u) -> on2 f t = Some t' -> unT t' = w :: unT t.
Proof.
  intros w f t t' HF H. destruct t as [[u|u o v]|[u|u o v] r]; cbn [on2] in H; destruct (f u) as [u'|] eqn:E; try discriminate; injection H as <-; apply HF in E; cbn; rewrite E; reflexivity.
Qed.
Lemma unwrap_puts : puts [wd UNWRAP] rfcUnwrap.
Proof.
  intros [[|] [t|k a t|g]] y H; try discriminate. cbn in H. destruct (on2 unwrap2 t) as [t'|] eqn:E; [|discriminate]. injection H as <-. apply (on2_puts (wd UNWRAP)) in E; [exact E|].
  intros [[[] w]| | | | | |] v K; try discriminate. now injection K as <-.
Qed.
Lemma enum_puts : puts [wd AMPERSAND] rfcEnum.
Proof.
  intros [[|] [t|k a t|g]] y H; try discriminate.
  - cbn in H. destruct (on2 enum2 t) as [t'|] eqn:E; [|discriminate]. injection H as <-. apply (on2_puts (wd AMPERSAND)) in E; [exact E|].
    intros [[[] w]| |t0| | | |] v K; try discriminate; injection K as <-; cbn; rewrite ?app_nil_r; reflexivity.
  - now injection H as <-.
Qed.

Lemma cons_un : forall x g, unG (consG x g) = unE x ++ unG g.
Proof. intros x [c|c h]; cbn; now rewrite <- ?app_assoc. Qed.
Lemma first_un : forall w f g g', puts w f -> onFirst f g = Some g' -> unG g' = w ++ unG g.
Proof.
  intros w f g g' HF H. destruct g as [[|x c]|[|x c] h]; try discriminate; cbn [onFirst] in H; destruct (f x) as [y|] eqn:E; try discriminate; injection H as <-; apply HF in E; cbn; rewrite E, <- !app_assoc; reflexivity.
Qed.
Lemma sole_un : forall g x, soleEnt g = Some x -> unG g = unE x.
Proof. intros g x H. destruct g as [[|y [|]]|]; try discriminate. injection H as <-. cbn. now rewrite app_nil_r. Qed.

Lemma bind_some : forall {A B} (a : option A) (f : A -> option B) b, bind a f = Some b -> exists x, a = Some x /\ f x = Some b.
Proof. intros A B [x|] f b H; [eauto|discriminate]. Qed.
Lemma map_some : forall {A B} (f : A -> B) a b, option_map f a = Some b -> exists x, a = Some x /\ b = f x.
Proof. intros A B f [x|] b H; [injection H as <-; eauto|discriminate]. Qed.
Ltac opt := repeat match goal with
  | H : bind _ _ = Some _ |- _ => let E := fresh "E" in apply bind_some in H; destruct H as (? & E & H)
  | H : option_map _ _ = Some _ |- _ => let E := fresh "E" in apply map_some in H; destruct H as (? & E & ->)
  | H : Some _ = Some _ |- _ => injection H as <-
  end.

Lemma bare_split : forall x l, bare (x :: l) = bare [x] ++ bare l.
Proof. intros x l. exact (bare_app [x] l). Qed.

Lemma show_comma : forall e c, bare (show e c) = bare (show e false).
Proof.
  induction e; intros c; cbn [show]; repeat first [rewrite bare_app|rewrite (bare_split _ (_ ++ _))|rewrite (bare_split _ (_ :: _))|rewrite (bare_split _ (commaLx _))|rewrite (bare_split _ (show _ _))]; rewrite ?(bare_comma c), ?(bare_comma false), ?(IHe c), ?(IHe2 c); reflexivity.
Qed.

Lemma atomLx_bare : forall X a, wfAtom X a -> bare [atomLx a] = [(xTok (atomLx a), xText (atomLx a))].
Proof.
  intros X [w|t|[]|w v|w b|w] W; try reflexivity. cbn in W. unfold bare; cbn [filter atomLx lx1 xTok].
  repeat (destruct W as [<- |W]; [reflexivity|]). contradiction.
Qed.
Lemma key_bare : forall k, bare [keyLx k] = [(xTok (keyLx k), xText (keyLx k))].
Proof. now intros []. Qed.
Lemma lx_bare : forall t, t <> COMMENT -> t <> COMMA -> bare [lx1 t] = [wd t].
Proof. intros t A B. now rewrite bare_cons. Qed.
Lemma op_bare : forall o l r, wfOper o l r -> bare [lx1 (opTok o)] = [wd (opTok o)].
Proof.
  intros [[]|t| | | |[]|[]] l r W; try reflexivity. destruct W as [W _]. cbn [opTok].
  repeat (destruct W as [<- |W]; [reflexivity|]). contradiction.
Qed.

Lemma atom_un : forall X e x, wf X e -> atomEx e = Some x -> unE x = bare (show e false).
Proof.
  intros X [a|g| | | | |] x W H; try discriminate; injection H as <-; cbn [show commaLx]; rewrite ?app_nil_r.
  - now rewrite (atomLx_bare X a W).
  - now rewrite bare_split.
Qed.
Lemma tag_un : forall g x y, tagEnt g x = Some y -> unE y = wd HASH :: bare (tagLx g) ++ wd LPAREN :: unE x ++ [wd RPAREN].
Proof. intros g [[|] [t| |]] y H; try discriminate. now injection H as <-. Qed.
Lemma brack_un : forall b g, unE (brackEnt b g) = wd (opening b) :: unG g ++ [wd (closing b)].
Proof. now intros [] g. Qed.
Lemma brack_bare : forall b, bare [lx1 (opening b)] = [wd (opening b)] /\ bare [lx1 (closing b)] = [wd (closing b)].
Proof. now intros []. Qed.

(** The lexemes of an expression, without commas and comments. *)
Lemma words_tagged : forall g e, bare (show (XTagged g e) false) = wd HASH :: bare (tagLx g) ++ wd LPAREN :: bare (show e false) ++ [wd RPAREN].
Proof. intros g e. cbn [show commaLx]. rewrite (bare_split (lx1 HASH)), bare_app, (bare_split (lx1 LPAREN)), bare_app. reflexivity. Qed.
Lemma words_bracket : forall b es, bare (show (XBracket b es) false) = wd (opening b) :: bare (showElems true es) ++ [wd (closing b)].
Proof. intros b es. cbn [show commaLx]. rewrite bare_split, bare_app. destruct (brack_bare b) as [-> ->]. reflexivity. Qed.
Lemma words_prefix : forall p e, bare (show (XPrefix p e) false) = wd (preTok p) :: bare (show e false).
Proof. intros p e. cbn [show]. rewrite bare_split. now destruct p. Qed.
Lemma words_infix : forall l o r, wfOper o l r -> bare (show (XInfix l o r) false) = bare (show l false) ++ wd (opTok o) :: bare (show r false).
Proof. intros l o r W. cbn [show]. rewrite bare_app, bare_split. now rewrite (op_bare o l r W). Qed.
Lemma words_member : forall k a v tc, bare (show (XMember k a v tc) false) = (xTok (keyLx k), xText (keyLx k)) :: wd (if a then ARROW_MAP else COLON) :: bare (show v false).
Proof.
  intros k a v tc. cbn [show]. rewrite bare_split, key_bare, (bare_split (lx1 (if a then _ else _))), bare_app.
  replace (bare (match tc with None => [] | Some c => [commentLx Same c] end)) with (@nil word) by now destruct tc.
  rewrite app_nil_r. now destruct a.
Qed.
Lemma words_elems : forall f l e c r, bare (showElems f (ECons l e c r)) = bare (show e false) ++ bare (showElems false r).
Proof. intros f l e c r. cbn [showElems]. now rewrite !bare_app, bare_lead, show_comma. Qed.
Lemma words_first : forall f es, bare (showElems f es) = bare (showElems true es).
Proof. intros f [|l e c r]; auto. now rewrite !words_elems. Qed.

(** *** The RFC structure has the lexemes of the expression. *)
Lemma chain_un : forall X,
  (forall e, wf X e -> forall g g', rfcChain e g = Some g' -> unG g' = bare (show e false) ++ unG g) /\
  (forall es, forall b, wfElems X b es -> forall g, rfcElems es = Some g -> unG g = bare (showElems true es)).
Proof.
  intros X. apply expr_elems_ind.
  - intros a W g g' H. change (rfcChain (XAtom a) g) with (option_map (fun x => consG x g) (atomEx (XAtom a))) in H. opt. now rewrite cons_un, (atom_un X _ _ W E).
  - intros t W g g' H. change (rfcChain (XTag t) g) with (option_map (fun x => consG x g) (atomEx (XTag t))) in H. opt. now rewrite cons_un, (atom_un X _ _ W E).
  - intros t e IH [_ W] g g' H. cbn [rfcChain] in H. opt. apply (IH W) in E. apply sole_un in E0. cbn in E. rewrite app_nil_r in E.
    rewrite cons_un, (tag_un _ _ _ E1), words_tagged, <- E0, E. cbn. rewrite <- !app_assoc. cbn. rewrite <- !app_assoc. reflexivity.
  - intros b es IH W g g' H. cbn [rfcChain] in H. opt. cbn [wf] in W. apply (IH _ W) in E. now rewrite cons_un, brack_un, words_bracket, E.
  - intros p e IH [W _] g g' H. rewrite words_prefix.
    destruct p; cbn [rfcChain] in H; opt; apply (IH W) in E; rewrite <- app_comm_cons, <- E;
      first [exact (first_un _ _ _ _ (occ_puts _) H)|exact (first_un _ _ _ _ unwrap_puts H)|exact (first_un _ _ _ _ enum_puts H)].
  - intros l IHl o r IHr W g g' H. destruct W as (P & Wl & Wr & Wo). rewrite (words_infix _ _ _ Wo). cbn [rfcChain] in H. opt.
    apply (IHl Wl) in E. apply (IHr Wr) in E1. apply sole_un in E0. cbn in E. rewrite app_nil_r in E.
    assert (K : unG g' = unE x0 ++ wd (opTok o) :: unG x1).
    { assert (G : forall f, (forall u, puts (un2 u ++ [wd (opTok o)]) (f u)) -> bind (asType2 x0) (fun u => onFirst (f u) x1) = Some g' -> unG g' = unE x0 ++ wd (opTok o) :: unG x1).
      { intros f F Q. opt. apply asType2_un in E2. rewrite E2, (first_un _ _ _ _ (F _) Q), <- app_assoc. reflexivity. }
      destruct o as [[]|t| | | |[]|[]]; try (exact (G _ (fun u => op_puts u _) H)).
      - unfold rfcOr in H. destruct x1 as [[|]|[|]]; try discriminate; injection H as <-; cbn; now rewrite app_nil_r.
      - exact (G _ or_puts H).
      - discriminate.
      - destruct Wo as ((w & v & ->) & _). cbn [isInt bind] in H. rewrite (first_un _ _ _ _ (occ_puts _) H), <- E0, E. reflexivity. }
    rewrite K, <- E0, E, E1, <- app_assoc. reflexivity.
  - intros k a v IH tc (_ & W & _) g g' H. rewrite words_member. cbn [rfcChain] in H. opt. apply (IH W) in E. rewrite <- !app_comm_cons, <- E. exact (first_un _ _ _ _ (key_puts _ _) H).
  - intros b _ g H. now injection H as <-.
  - intros l e IHe c r IHr b (_ & We & _ & _ & Wr) g H. cbn [rfcElems] in H. opt. rewrite words_elems, (words_first false), (IHe We _ _ H), (IHr _ Wr _ E). reflexivity.
Qed.






(** *** The structure of the tree has them too, unless it takes more parentheses. *)
Definition parens (l : list word) : nat := List.length (filter (fun w => teq (fst w) LPAREN) l).
Lemma parens_app : forall a b, parens (a ++ b) = (parens a + parens b)%nat.
Proof. intros a b. unfold parens. now rewrite filter_app, app_length. Qed.
Lemma parens_cons : forall w b, parens (w :: b) = (parens [w] + parens b)%nat.
Proof. intros w b. exact (parens_app [w] b). Qed.

(** [b]: the lexemes are [w]; if not, there are more parentheses. *)
Definition more (u w : list word) (b : bool) : Prop := (u = w /\ b = true) \/ ((parens w < parens u)%nat /\ b = false).

Lemma more_eq : forall u w b, more u w b -> (u = w <-> b = true).
Proof. intros u w b [[-> ->]|[L ->]]; [tauto|]. split; [intros ->; lia|discriminate]. Qed.
Lemma more_app : forall u w b u' w' b', more u w b -> more u' w' b' -> more (u ++ u') (w ++ w') (b && b').
Proof.
  intros u w b u' w' b' [[-> ->]|[L ->]] [[-> ->]|[L' ->]]; [left; auto|right|right|right]; rewrite !parens_app; split; auto; lia.
Qed.
Lemma more_refl : forall u, more u u true.
Proof. left; auto. Qed.
Lemma more_cons : forall x u w b, more u w b -> more (x :: u) (x :: w) b.
Proof. intros x u w b H. exact (more_app [x] [x] true _ _ _ (more_refl _) H). Qed.
Lemma more_le : forall u w b, more u w b -> (parens w <= parens u)%nat.
Proof. intros u w b [[-> _]|[L _]]; lia. Qed.
Lemma more_lt : forall u w b u', more u w b -> (parens u < parens u')%nat -> more u' w false.
Proof. intros u w b u' H L. right. split; auto. apply more_le in H. lia. Qed.

Definition gchoice (e : expr) : bool := match e with XInfix _ (OChoice true) _ => true | _ => false end.

Lemma calm_sole : forall e, calm true e = true -> gchoice e = false -> calm false e = true.
Proof. intros [a|t|t e|b es|p e|l [[]| | | | | |] r|k a v tc] H G; try exact H; discriminate. Qed.
Lemma calm_false : forall e, calm false e = true -> calm true e = true.
Proof. intros [a|t|t e|b es|p e|l [[]| | | | | |] r|k a v tc] H; try exact H. cbn in H. rewrite andb_false_r in H. discriminate. Qed.
Lemma calm_gchoice : forall e, gchoice e = true -> calm false e = false.
Proof. intros [a|t|t e|b es|p e|l [[]| | | | | |] r|k a v tc] H; try discriminate. cbn. apply andb_false_r. Qed.
Lemma calm_same : forall e, gchoice e = false -> calm true e = calm false e.
Proof.
  intros e G. destruct (calm false e) eqn:F; [now apply calm_false|]. destruct (calm true e) eqn:T; auto. rewrite (calm_sole e T G) in F. discriminate.
Qed.

Lemma tree_shape : forall e g, treeOf e = Some g -> if gchoice e then exists x q, g = GOr (CCons x CNil) q else exists x, g = one x.
Proof.
  intros e g H. destruct e as [a|t|t e|b es|p e|l o r|k a v tc]; cbn [gchoice].
  - change (treeOf (XAtom a)) with (option_map one (atomEx (XAtom a))) in H. opt. eauto.
  - change (treeOf (XTag t)) with (option_map one (atomEx (XTag t))) in H. opt. eauto.
  - cbn [treeOf] in H. opt. eauto.
  - cbn [treeOf] in H. opt. eauto.
  - destruct p; cbn [treeOf] in H; opt; eauto.
  - cbn [treeOf] in H. opt. destruct o as [[]|t| | | |[]|[]]; opt; eauto; discriminate.
  - cbn [treeOf] in H. opt. eauto.
Qed.
Lemma wrap_one : forall x, wrap (one x) = x.
Proof. reflexivity. Qed.

(** The same for the entry made of a structure. *)
Lemma more_wrap : forall e g w, treeOf e = Some g -> more (unG g) w (calm true e) -> more (unE (wrap g)) w (calm false e).
Proof.
  intros e g w H M. pose proof (tree_shape e g H) as S. destruct (gchoice e) eqn:G.
  - destruct S as (x & q & ->). rewrite (calm_gchoice e G). apply (more_lt _ _ _ _ M). cbn [wrap soleEnt unE unB]. rewrite parens_cons, parens_app. cbn. lia.
  - destruct S as (x & ->). rewrite <- (calm_same e G). cbn in M. rewrite app_nil_r in M. exact M.
Qed.

(** What entries without operator look like. *)
Definition simple (x : rent) : Prop :=
  match x with
  | Ent None (BType (TOne (TPlain (TParen _)))) => False
  | Ent None (BType (TOne (TPlain _))) => True
  | Ent None (BType _) => False
  | _ => True
  end.
Lemma one_some : forall a x, option_map one a = Some (one x) -> a = Some x.
Proof. intros [y|] x H; [|discriminate]. injection H as <-. reflexivity. Qed.
Lemma simple_of : forall e x, infix e = false -> treeOf e = Some (one x) -> simple x.
Proof.
  intros e x I H. destruct e as [a|t|t e|b es|p e|l o r|k a v tc]; try discriminate.
  - now injection H as <-.
  - now injection H as <-.
  - cbn [treeOf] in H. apply bind_some in H. destruct H as (h & _ & H). apply one_some in H. unfold tagEnt in H. apply map_some in H. destruct H as (t' & _ & ->). exact Logic.I.
  - cbn [treeOf] in H. apply map_some in H. destruct H as (t' & _ & H). injection H as ->. now destruct b.
  - assert (O : forall o y, occEnt o y = Some x -> simple x) by (intros o [[|] b] K; [discriminate|injection K as <-; exact Logic.I]).
    destruct p; cbn [treeOf] in H; apply bind_some in H; destruct H as (h & _ & H); apply one_some in H; try exact (O _ _ H).
    + unfold treeUnwrap in H. destruct (asType (wrap h)) as [[[u|]|]|]; try discriminate. apply map_some in H. destruct H as (v & K & ->). destruct u as [[[] w]| | | | | |]; try discriminate. injection K as <-. exact Logic.I.
    + destruct (wrap h) as [[|] [[[[[[] w]| | | | | |]|]|]| |g]]; try discriminate; injection H as <-; exact Logic.I.
  - destruct o as [| | | | |[]|]; try discriminate; cbn [treeOf] in H; apply bind_some in H; destruct H as (h & _ & H); apply bind_some in H; destruct H as (q & _ & H); [discriminate|].
    apply bind_some in H. destruct H as (n & _ & H). apply one_some in H. destruct (wrap q) as [[|] b]; [discriminate|]. injection H as <-. exact Logic.I.
  - cbn [treeOf] in H. apply bind_some in H. destruct H as (h & _ & H). apply one_some in H. apply map_some in H. destruct H as (t' & _ & ->). exact Logic.I.
Qed.

(** What entries with an operator look like. *)
Lemma infix_shape : forall e x, infix e = true -> treeOf e = Some (one x) -> match x with Ent None (BType (TOne (TPlain _))) | Ent None (BGrp _) => False | _ => True end.
Proof.
  intros e x I H. destruct e as [a|t|t e|b es|p e|l o r|k a v tc]; try discriminate.
  cbn [treeOf] in H. apply bind_some in H. destruct H as (h & _ & H). apply bind_some in H. destruct H as (q & _ & H).
  assert (K : forall u, treeOp u (wd (opTok o)) (wrap q) = Some x -> match x with Ent None (BType (TOne (TPlain _))) | Ent None (BGrp _) => False | _ => True end).
  { intros u Q. unfold treeOp in Q. destruct (asType (wrap q)) as [[[]|]|]; try discriminate; injection Q as <-; exact Logic.I. }
  assert (G : forall f, bind (asType2 (wrap h)) (fun u => option_map one (f u)) = Some (one x) -> exists u, f u = Some x).
  { intros f Q. apply bind_some in Q. destruct Q as (u & _ & Q). apply one_some in Q. eauto. }
  destruct o as [[]|t| | | |[]|[]]; try discriminate; try (apply G in H; destruct H as (u & H); exact (K u H)).
  - apply G in H. destruct H as (u & H). apply map_some in H. destruct H as (t & _ & ->). exact Logic.I.
Qed.
Lemma infix_of : forall e x, infix e = true -> treeOf e = Some (one x) -> match asType x with Some (TOne (TPlain _)) => False | _ => True end.
Proof. intros e x I H. pose proof (infix_shape e x I H) as K. destruct x as [[|] [[[|]|]| |]]; try exact Logic.I; contradiction. Qed.

Lemma join_un : forall l, unG (join l) = match l with [g] => unG g | _ => flat_map (fun g => unE (wrap g)) l end.
Proof.
  assert (K : forall l, unC (fold_right (fun g c => CCons (wrap g) c) CNil l) = flat_map (fun g => unE (wrap g)) l) by (induction l as [|g l IH]; auto; cbn; now rewrite IH).
  intros [|g [|h l]]; auto. exact (K (g :: h :: l)).
Qed.

Lemma tree_more : forall X,
  (forall e, wf X e -> forall g, treeOf e = Some g -> more (unG g) (bare (show e false)) (calm true e)) /\
  (forall es, forall b, wfElems X b es -> forall l, treeElems es = Some l ->
     more (flat_map (fun g => unE (wrap g)) l) (bare (showElems true es)) (calmElems false es) /\
     more (unG (join l)) (bare (showElems true es)) (calmElems true es)).
Proof.
  intros X. apply expr_elems_ind.
  - intros a W g H. change (treeOf (XAtom a)) with (option_map one (atomEx (XAtom a))) in H. opt. cbn [one unG unC]. rewrite app_nil_r, (atom_un X _ _ W E). apply more_refl.
  - intros t W g H. change (treeOf (XTag t)) with (option_map one (atomEx (XTag t))) in H. opt. cbn [one unG unC]. rewrite app_nil_r, (atom_un X _ _ W E). apply more_refl.
  - intros t e IH [_ W] g H. cbn [treeOf] in H. opt. pose proof (more_wrap _ _ _ E (IH W _ E)) as M.
    cbn [one unG unC]. rewrite app_nil_r, (tag_un _ _ _ E0), words_tagged. apply more_cons.
    apply (more_app _ _ true _ _ (calm false e)); [apply more_refl|]. apply more_cons. rewrite <- (andb_true_r (calm false e)). apply more_app; [exact M|apply more_refl].
  - intros b es IH W g H. cbn [treeOf] in H. opt. cbn [wf] in W. destruct (IH _ W _ E) as [_ M].
    cbn [one unG unC]. rewrite app_nil_r, brack_un, words_bracket. apply more_cons. rewrite <- (andb_true_r (calm true (XBracket b es))). apply more_app; [exact M|apply more_refl].
  - intros p e IH [W _] g H. rewrite words_prefix.
    assert (O : forall o y w, occEnt o y = Some w -> unE w = o ++ unE y) by (intros o y w Q; exact (occ_puts o y w Q)).
    destruct p; cbn [treeOf] in H; opt; pose proof (more_wrap _ _ _ E (IH W _ E)) as M; cbn [one unG unC]; rewrite app_nil_r;
      try (rewrite (O _ _ _ E0); cbn [calm]; rewrite andb_true_r; apply more_cons; exact M).
    + unfold treeUnwrap in E0. destruct (asType (wrap x)) as [[[u|]|]|] eqn:T; try discriminate. apply map_some in E0. destruct E0 as (v & K & ->).
      assert (I : infix e = false).
      { destruct (infix e) eqn:I; auto. exfalso. pose proof (tree_shape _ _ E) as S. destruct (gchoice e) eqn:G.
        - destruct S as (y & q & ->). discriminate.
        - destruct S as (y & ->). pose proof (infix_of e y I E) as N. rewrite wrap_one in T. rewrite T in N. exact N. }
      cbn [calm]. rewrite I. cbn [negb]. rewrite andb_true_r.
      replace (unE (entOf v)) with (wd UNWRAP :: unE (wrap x)); [now apply more_cons|]. rewrite (asType_un _ _ T).
      destruct u as [[[] w]| | | | | |]; try discriminate. now injection K as <-.
    + assert (U : unE x0 = wd AMPERSAND :: unE (wrap x)) by (destruct (wrap x) as [[|] [[[[[[] w]| | | | | |]|]|]| |g]]; try discriminate; now injection E0 as <-).
      rewrite U. apply more_cons. cbn [calm]. destruct (infix e) eqn:I; cbn [negb]; [|now rewrite andb_true_r].
      rewrite andb_false_r. pose proof (tree_shape _ _ E) as S. destruct (gchoice e) eqn:G.
      * now rewrite (calm_gchoice e G) in M.
      * exfalso. destruct S as (y & ->). pose proof (infix_shape e y I E) as N. rewrite wrap_one in E0. destruct y as [[|] [[[|]|]| |]]; try contradiction; discriminate.
  - intros l IHl o r IHr W g H. destruct W as (P & Wl & Wr & Wo). rewrite (words_infix _ _ _ Wo). cbn [treeOf] in H. opt.
    pose proof (more_wrap _ _ _ E (IHl Wl _ E)) as Ml. pose proof (IHr Wr _ E0) as Ar. pose proof (more_wrap _ _ _ E0 Ar) as Mr.
    assert (F : forall f, bind (asType2 (wrap x)) (fun u => option_map one (f u)) = Some g -> exists u y, unE (wrap x) = un2 u /\ g = one y /\ f u = Some y).
    { intros f Q. apply bind_some in Q. destruct Q as (u & T & Q). apply map_some in Q. destruct Q as (y & Q & ->). apply asType2_un in T. eauto. }
    assert (C : forall u, calm true (XInfix l o r) = calm false l && (calm false r && negb (infix r)) -> treeOp u (wd (opTok o)) (wrap x0) = Some (wrap g) -> unE (wrap x) = un2 u -> more (unE (wrap g)) (bare (show l false) ++ wd (opTok o) :: bare (show r false)) (calm true (XInfix l o r))).
    { intros u K T U. rewrite K. unfold treeOp in T. destruct (asType (wrap x0)) as [t|] eqn:A; [|discriminate].
      assert (T' : (exists v, t = TOne (TPlain v)) \/ (match t with TOne (TPlain _) => False | _ => True end)) by (destruct t as [[]|]; eauto).
      destruct T' as [(v & ->)|T'].
      - assert (I : infix r = false).
        { destruct (infix r) eqn:I; auto. exfalso. pose proof (tree_shape _ _ E0) as S. destruct (gchoice r) eqn:G.
          - destruct S as (y & q & ->). discriminate.
          - destruct S as (y & ->). pose proof (infix_of r y I E0) as N. rewrite wrap_one in A. rewrite A in N. exact N. }
        rewrite I, andb_true_r. assert (Y : unE (wrap g) = unE (wrap x) ++ wd (opTok o) :: unE (wrap x0)).
        { rewrite (asType_un _ _ A), U. injection T as <-. reflexivity. }
        rewrite Y. apply more_app; [exact Ml|]. now apply more_cons.
      - assert (Y : unE (wrap g) = unE (wrap x) ++ wd (opTok o) :: wd LPAREN :: unE (wrap x0) ++ [wd RPAREN]).
        { rewrite (asType_un _ _ A), U. destruct t as [[v|v w z]|[v|v w z] q]; try contradiction; injection T as <-; cbn; reflexivity. }
        rewrite Y. replace (calm false l && (calm false r && negb (infix r))) with (calm false l && false).
        + apply more_app; [exact Ml|]. apply more_cons. apply (more_lt _ _ _ _ Mr). rewrite parens_cons, parens_app. cbn. lia.
        + f_equal. destruct (infix r) eqn:I; [now rewrite andb_false_r|]. exfalso. pose proof (tree_shape _ _ E0) as S. replace (gchoice r) with false in S by (destruct r as [| | | | |? [[]| | | | | |] ?|]; try discriminate; reflexivity).
          destruct S as (y & ->). pose proof (simple_of r y I E0) as N. rewrite wrap_one in A.
          destruct y as [[|] [[[[]|]|]|k a t0|[[|[[|] [| |]] [|]]|]]]; try contradiction; try discriminate; injection A as <-; try contradiction. }
    assert (B : forall y, unE (wrap (one y)) = unG (one y)) by (intros y; cbn; now rewrite app_nil_r).
    destruct o as [[]|t| | | |[]|[]]; try discriminate;
      try (apply F in H; destruct H as (u & y & U & -> & H); rewrite <- B; exact (C u eq_refl H U)).
    + injection H as <-. cbn [unG unC calm]. rewrite app_nil_r. apply more_app; [exact Ml|]. now apply more_cons.
    + apply F in H. destruct H as (u & y & U & -> & H). rewrite <- B, wrap_one. pose proof (or_puts u _ _ H) as Q. rewrite Q, <- U, <- app_assoc. cbn [calm]. apply more_app; [exact Ml|]. now apply more_cons.
    + destruct Wo as ((w & v & ->) & _). cbn [isInt bind] in H. opt. cbn [one unG unC]. rewrite app_nil_r, (occ_puts _ _ _ E1). apply more_cons. apply more_cons. exact Mr.
  - intros k a v IH tc (_ & W & _) g H. rewrite words_member. cbn [treeOf] in H. opt. pose proof (more_wrap _ _ _ E (IH W _ E)) as M. cbn [one unG unC]. rewrite app_nil_r, (key_puts _ _ _ _ E0). apply more_cons. apply more_cons. exact M.
  - intros b _ l H. injection H as <-. split; apply more_refl.
  - intros l e IHe c r IHr b (_ & We & _ & _ & Wr) l' H. cbn [treeElems] in H. opt. destruct (IHr _ Wr _ E0) as [M _]. pose proof (IHe We _ E) as A. pose proof (more_wrap _ _ _ E A) as B.
    rewrite words_elems, (words_first false). cbn [flat_map calmElems andb]. split; [exact (more_app _ _ _ _ _ _ B M)|].
    destruct r as [|l2 e2 c2 r2].
    + injection E0 as <-. cbn [join showElems]. rewrite <- (app_nil_r (unG x)). exact (more_app _ _ _ [] [] true A (more_refl _)) .
    + rewrite join_un. destruct x0 as [|g2 gs].
      * cbn [treeElems] in E0. destruct (treeOf e2); [|discriminate]. destruct (treeElems r2); discriminate.
      * exact (more_app _ _ _ _ _ _ B M).
Qed.

(** *** Where the tree has the structure of the RFC. *)
Lemma first_cons : forall f y g g', onFirst f (consG y g) = Some g' -> exists x, f y = Some x /\ g' = consG x g.
Proof. intros f y [c|c h] g' H; cbn [consG onFirst] in H; apply map_some in H; destruct H as (x & E & ->); eauto. Qed.
Lemma sole_cons : forall y x, soleEnt (consG y (GOne CNil)) = Some x -> y = x.
Proof. intros y x H. now injection H. Qed.

Lemma calm_agree : forall X,
  (forall e, wf X e ->
     (calm false e = true -> forall g g', rfcChain e g = Some g' -> exists x, treeOf e = Some (one x) /\ g' = consG x g) /\
     (calm true e = true -> forall g', rfcChain e (GOne CNil) = Some g' -> treeOf e = Some g')) /\
  (forall es, forall b, wfElems X b es -> forall g, rfcElems es = Some g ->
     (calmElems false es = true -> exists l, treeElems es = Some l /\ g = GOne (fold_right (fun g c => CCons (wrap g) c) CNil l)) /\
     (calmElems true es = true -> exists l, treeElems es = Some l /\ g = join l)).
Proof.
  intros X.
  assert (D : forall e, gchoice e = false ->
     (calm false e = true -> forall g g', rfcChain e g = Some g' -> exists x, treeOf e = Some (one x) /\ g' = consG x g) ->
     (calm false e = true -> forall g g', rfcChain e g = Some g' -> exists x, treeOf e = Some (one x) /\ g' = consG x g) /\
     (calm true e = true -> forall g', rfcChain e (GOne CNil) = Some g' -> treeOf e = Some g')).
  { intros e G H. split; auto. intros C g' Q. rewrite (calm_same e G) in C. destruct (H C _ _ Q) as (x & T & ->). exact T. }
  apply expr_elems_ind.
  - intros a W. apply D; auto. intros _ g g' H. change (rfcChain (XAtom a) g) with (option_map (fun x => consG x g) (atomEx (XAtom a))) in H. opt.
    exists x. split; auto. change (treeOf (XAtom a)) with (option_map one (atomEx (XAtom a))). now rewrite E.
  - intros t W. apply D; auto. intros _ g g' H. change (rfcChain (XTag t) g) with (option_map (fun x => consG x g) (atomEx (XTag t))) in H. opt.
    exists x. split; auto. change (treeOf (XTag t)) with (option_map one (atomEx (XTag t))). now rewrite E.
  - intros t e IH [_ W]. apply D; auto. intros C g g' H. cbn [rfcChain] in H. opt. destruct (IH W) as [IH1 _]. destruct (IH1 C _ _ E) as (y & T & ->). apply sole_cons in E0. subst y.
    exists x1. split; auto. cbn [treeOf]. rewrite T. cbn [bind]. rewrite wrap_one, E1. reflexivity.
  - intros b es IH W. apply D; auto. intros C g g' H. cbn [rfcChain] in H. opt. cbn [wf] in W. destruct (IH _ W _ E) as [_ IH2]. destruct (IH2 C) as (l & T & ->).
    eexists. split; [|reflexivity]. cbn [treeOf]. now rewrite T.
  - intros p e IH [W _]. apply D; auto. intros C g g' H. destruct (IH W) as [IH1 _]. cbn [calm] in C. apply andb_prop in C. destruct C as [C I].
    destruct p; cbn [rfcChain] in H; opt; destruct (IH1 C _ _ E) as (y & T & ->); apply first_cons in H; destruct H as (x & Q & ->); exists x; (split; [|reflexivity]); cbn [treeOf]; rewrite T; cbn [bind]; rewrite wrap_one; try (rewrite Q; reflexivity);
      apply negb_true_iff in I; pose proof (simple_of e y I T) as S.
    + destruct y as [[|] [[[u|]|]| |]]; try contradiction; try discriminate. cbn [rfcUnwrap on2] in Q. cbn [treeUnwrap asType]. destruct (unwrap2 u); [|discriminate]. injection Q as <-. reflexivity.
    + destruct y as [[|] [[[u|]|]| |h]]; try contradiction; try discriminate.
      * cbn [rfcEnum on2] in Q. destruct u as [[[] w]| | | | | |]; try discriminate; try contradiction. injection Q as <-. reflexivity.
      * injection Q as <-. reflexivity.
  - intros l IHl o r IHr W. destruct W as (P & Wl & Wr & Wo). destruct (IHl Wl) as [Al _]. destruct (IHr Wr) as [Ar Br].
    assert (A : calm false (XInfix l o r) = true -> forall g g', rfcChain (XInfix l o r) g = Some g' -> exists x, treeOf (XInfix l o r) = Some (one x) /\ g' = consG x g).
    { intros C g g' H. cbn [calm] in C. apply andb_prop in C. destruct C as [Cl C]. cbn [rfcChain] in H. opt. destruct (Al Cl _ _ E) as (y & Tl & ->). apply sole_cons in E0. subst y.
      assert (F : forall f f', calm false r = true -> (forall u y, treeOf r = Some (one y) -> f u y = f' u y) ->
        bind (asType2 x0) (fun u => onFirst (f u) x1) = Some g' ->
        exists y, bind (treeOf l) (fun h => bind (treeOf r) (fun q => bind (asType2 (wrap h)) (fun u => option_map one (f' u (wrap q))))) = Some (one y) /\ g' = consG y g).
      { intros f f' Cr K Q. apply bind_some in Q. destruct Q as (u & U & Q). destruct (Ar Cr _ _ E1) as (y & Tr & ->). apply first_cons in Q. destruct Q as (v & Q & ->). exists v. split; auto.
        rewrite Tl, Tr. cbn [bind]. rewrite !wrap_one, U. cbn [bind]. now rewrite <- (K u y Tr), Q. }
      assert (O : forall u y, infix r = false -> treeOf r = Some (one y) -> rfcOp u (wd (opTok o)) y = treeOp u (wd (opTok o)) y).
      { intros u y I Tr. pose proof (simple_of r y I Tr) as S. unfold rfcOp, treeOp. destruct y as [[|] [[[v|]|]|k a t0|[[|[[|] [| |]] [|]]|]]]; try contradiction; reflexivity. }
      destruct o as [[]|t| | | |[]|[]]; try discriminate;
        try (apply andb_prop in C; destruct C as [Cr I]; apply negb_true_iff in I; exact (F _ _ Cr (fun u y Y => O u y I Y) H)).
      * exact (F _ _ C (fun _ _ _ => eq_refl) H).
      * apply bind_some in H. destruct H as (n & N & H). destruct (Ar C _ _ E1) as (y & Tr & ->). apply first_cons in H. destruct H as (v & Q & ->). exists v. split; auto.
        cbn [treeOf]. rewrite Tl, Tr. cbn [bind]. rewrite N. cbn [bind]. now rewrite wrap_one, Q. }
    destruct (gchoice (XInfix l o r)) eqn:G; [|exact (D _ G A)]. split; [exact A|]. intros C g' H.
    destruct o as [[]| | | | | |]; try discriminate. cbn [calm andb] in C. apply andb_prop in C. destruct C as [Cl Cr]. cbn [rfcChain] in H. opt. destruct (Al Cl _ _ E) as (y & Tl & ->). apply sole_cons in E0. subst y.
    apply (Br Cr) in E1. cbn [treeOf]. rewrite Tl, E1. cbn [bind]. rewrite wrap_one. unfold rfcOr in H. destruct x1 as [[|]|[|]]; try discriminate; exact H.
  - intros k a v IH tc (_ & W & _). apply D; auto. intros C g g' H. destruct (IH W) as [IH1 _]. cbn [rfcChain] in H. opt. destruct (IH1 C _ _ E) as (y & T & ->). apply first_cons in H. destruct H as (x & Q & ->).
    exists x. split; auto. cbn [treeOf]. rewrite T. cbn [bind]. now rewrite wrap_one, Q.
  - intros b _ g H. injection H as <-. split; intros _; exists []; auto.
  - intros l e IHe c r IHr b (_ & We & _ & _ & Wr) g H. cbn [rfcElems] in H. opt. destruct (IHe We) as [A B]. destruct (IHr _ Wr _ E) as [M _].
    assert (G : calm false e = true -> calmElems false r = true -> exists y l, treeOf e = Some (one y) /\ treeElems r = Some l /\ g = GOne (fold_right (fun g c => CCons (wrap g) c) CNil (one y :: l))).
    { intros C D'. destruct (M D') as (l' & T & ->). destruct (A C _ _ H) as (y & U & ->). exists y, l'. auto. }
    cbn [calmElems andb treeElems]. split; intros C; apply andb_prop in C; destruct C as [C C'].
    + destruct (G C C') as (y & l' & -> & -> & ->). cbn. eauto.
    + destruct r as [|l2 e2 c2 r2].
      * injection E as <-. rewrite (B C _ H). exists [g]. auto.
      * destruct (G C C') as (y & l' & -> & T & ->). rewrite T. cbn [bind option_map]. exists (one y :: l'). split; auto. destruct l' as [|]; auto.
Qed.

(** ** Property C94 *)

Lemma rule_un : forall (r : word * word * rent), fst (fst r) :: snd (fst r) :: unE (snd r) = [fst (fst r); snd (fst r)] ++ unE (snd r).
Proof. reflexivity. Qed.

Lemma words_rules : forall f rs final, bare (showRules f rs final) = flat_map (fun r => bare (showRule (snd r))) rs.
Proof.
  intros f rs final. revert f. induction rs as [|[l r] rs IH]; intros f; cbn [showRules flat_map snd]; [apply bare_lead|]. now rewrite !bare_app, bare_lead, IH.
Qed.
Lemma words_rule : forall X r, wfRule X r -> bare (showRule r) = (IDENT, rName r) :: wd (rAssign r) :: bare (show (rBody r) false).
Proof.
  intros X r (_ & A & _). unfold showRule. rewrite bare_split, (bare_split (lx1 (rAssign r))). f_equal. cbn [app].
  destruct A as [-> |[-> | ->]]; reflexivity.
Qed.

Lemma unparse_cons : forall r T, unparse (r :: T) = fst (fst r) :: snd (fst r) :: unE (snd r) ++ unparse T.
Proof. reflexivity. Qed.

Lemma all_cons : forall {A B} (f : A -> option B) a l T, all f (a :: l) = Some T -> exists b T', T = b :: T' /\ f a = Some b /\ all f l = Some T'.
Proof. intros A B f a l T H. cbn [all] in H. apply bind_some in H. destruct H as (b & E & H). apply map_some in H. destruct H as (T' & E' & ->). eauto. Qed.

Definition rfcBody (e : expr) : option rent := bind (rfcChain e (GOne CNil)) soleEnt.
Definition treeBody (e : expr) : option rent := option_map wrap (treeOf e).

Lemma wrap_sole : forall g x, soleEnt g = Some x -> wrap g = x.
Proof. intros g x H. unfold wrap. now rewrite H. Qed.

Lemma body_un : forall X e x, wf X e -> rfcBody e = Some x -> unE x = bare (show e false).
Proof.
  intros X e x W H. unfold rfcBody in H. opt. apply sole_un in H. rewrite <- H, (proj1 (chain_un X) e W _ _ E). cbn. apply app_nil_r.
Qed.
Lemma body_more : forall X e x, wf X e -> treeBody e = Some x -> more (unE x) (bare (show e false)) (calm false e).
Proof. intros X e x W H. unfold treeBody in H. opt. exact (more_wrap _ _ _ E (proj1 (tree_more X) e W _ E)). Qed.
Lemma body_agree : forall X e x, wf X e -> rfcBody e = Some x -> calm false e = true -> treeBody e = Some x.
Proof.
  intros X e x W H C. unfold rfcBody in H. opt. destruct (proj1 (proj1 (calm_agree X) e W) C _ _ E) as (y & T & ->). apply sole_cons in H. subst y. unfold treeBody. now rewrite T.
Qed.

Lemma rules_of : forall X d, wfDoc X d -> Forall (fun r => wfRule X (snd r)) (dRules d).
Proof. intros X d [W _]. eapply Forall_impl; [|exact W]. intros r [_ K]. exact K. Qed.

(** The RFC reading of a document is made of its lexemes. *)
Theorem C94_reads : forall X d T, wfDoc X d -> rfcReading d = Some T -> unparse T = bare (showDoc d).
Proof.
  intros X d T W H. apply rules_of in W. unfold showDoc. rewrite words_rules. unfold rfcReading in H. revert T H.
  induction W as [|[l r] rs W1 W IH]; intros T H; [injection H as <-; reflexivity|].
  apply all_cons in H. destruct H as (b & T' & -> & E & H). cbn [snd] in *. unfold ruleOf in E. apply map_some in E. destruct E as (x & E & ->).
  rewrite unparse_cons. cbn [flat_map fst snd]. rewrite (words_rule X r W1), (IH _ H), (body_un X (rBody r) x); [reflexivity|apply W1|exact E].
Qed.

Lemma reading_more : forall X d U, wfDoc X d -> treeReading d = Some U -> more (unparse U) (bare (showDoc d)) (plainDoc d).
Proof.
  intros X d T W H. apply rules_of in W. unfold showDoc, plainDoc. rewrite words_rules. unfold treeReading in H. revert T H.
  induction W as [|[l r] rs W1 W IH]; intros T H; [injection H as <-; apply more_refl|].
  apply all_cons in H. destruct H as (b & T' & -> & E & H). cbn [snd] in *. unfold ruleOf in E. apply map_some in E. destruct E as (x & E & ->).
  rewrite unparse_cons. cbn [flat_map forallb fst snd]. rewrite (words_rule X r W1). rewrite <- !app_comm_cons. do 2 apply more_cons. apply more_app; [|exact (IH _ H)].
  apply (body_more X); [apply W1|exact E].
Qed.

(** The structure of the tree can be written with these lexemes only if the document is plain. *)
Theorem C94_needs : forall X d U, wfDoc X d -> treeReading d = Some U -> (unparse U = bare (showDoc d) <-> plainDoc d = true).
Proof. intros X d U W H. exact (more_eq _ _ _ (reading_more X d U W H)). Qed.

(** Parser and RFC agree on exactly the plain documents. *)
Theorem C94_agree : forall X d T, wfDoc X d -> rfcReading d = Some T -> (treeReading d = Some T <-> plainDoc d = true).
Proof.
  intros X d T W H. split.
  - intros U. apply (proj1 (C94_needs X d T W U)). exact (C94_reads X d T W H).
  - clear - W H. apply rules_of in W. unfold rfcReading, treeReading, plainDoc in *. revert T H.
    induction W as [|[l r] rs W1 W IH]; intros T H P; [exact H|].
    apply all_cons in H. destruct H as (b & T' & -> & E & H). cbn [snd forallb] in *. apply andb_prop in P. destruct P as [P1 P]. unfold ruleOf in E. apply map_some in E. destruct E as (x & E & ->).
    cbn [all]. rewrite (IH _ H P). unfold ruleOf at 1. cbn [snd]. pose proof (body_agree X (rBody r) x ltac:(apply W1) E P1) as K. unfold treeBody in K. rewrite K. reflexivity.
Qed.

(** *** The tree the parser makes *)

Lemma infix_forget : forall X sp e, wf X e -> infix (forget sp e) = infix e.
Proof.
  intros X sp [a|t|t e|b es|p e|l o r|k a v tc] W; try reflexivity. destruct W as (_ & _ & _ & Wo).
  destruct o as [[]|t| | | |b|[]]; try reflexivity. destruct Wo as ((w & v & ->) & _). cbn [forget]. unfold times. now destruct (v =? _), b.
Qed.
Lemma calm_forget : forall X sp,
  (forall e, wf X e -> forall s, calm s (forget sp e) = calm s e) /\
  (forall es, forall b, wfElems X b es -> forall f, calmElems f (forgets sp es) = calmElems f es).
Proof.
  intros X sp. apply expr_elems_ind; try reflexivity.
  - intros t e IH [_ W] s. exact (IH W false).
  - intros b es IH W s. exact (IH _ W true).
  - intros p e IH [W _] s. change (forget sp (XPrefix p e)) with (XPrefix p (forget sp e)). cbn [calm]. now rewrite (IH W), (infix_forget X sp e W).
  - intros l IHl o r IHr (_ & Wl & Wr & Wo) s.
    assert (G : calm s (XInfix (forget sp l) o (forget sp r)) = calm s (XInfix l o r)).
    { cbn [calm]. rewrite (IHl Wl), (infix_forget X sp r Wr), !(IHr Wr). reflexivity. }
    destruct o as [b|t| | | |b|b]; try exact G.
    + destruct Wo as (_ & k & -> & _). exact G.
    + destruct Wo as ((w & v & ->) & _). change (forget sp (XInfix (XAtom (AInt w v)) (OTimes b) r)) with (times b v (forget sp r)).
      unfold times. destruct (v =? _); [|exact G]. destruct b; cbn [calm andb]; rewrite andb_true_r; apply (IHr Wr).
  - intros k a v IH tc (_ & W & _) s. exact (IH W false).
  - intros l e IHe c r IHr b (_ & We & _ & _ & Wr) f. change (forgets sp (ECons l e c r)) with (ECons [] (forget sp e) true (forgets sp r)). cbn [calmElems]. rewrite (IHr _ Wr), (IHe We). now destruct r.
Qed.
Lemma plain_forget : forall X sp d, wfDoc X d -> plainDoc (forgetDoc sp d) = plainDoc d.
Proof.
  intros X sp d W. apply rules_of in W. unfold plainDoc, forgetDoc. cbn [dRules]. induction W as [|[l r] rs W1 W IH]; auto.
  cbn [map forallb fst snd forgetRule rBody]. rewrite IH. f_equal. apply (proj1 (calm_forget X sp)), W1.
Qed.

(** The tree made of a source, read as its operands say, has the structure that RFC 8610 gives to
    the document exactly if the document is plain. *)
Theorem C94_parser : forall X sp s e d t p T, wfDoc X d -> parsesAs X s e d -> clean X s e t p -> wfDoc X (undoc sp (strip t)) -> rfcReading (forgetDoc sp d) = Some T ->
  (treeReading (undoc sp (strip t)) = Some T <-> plainDoc d = true).
Proof.
  intros X sp s e d t p T W (t1 & p1 & ? & C1 & T1 & _) C W' H. unfold clean in *. rewrite C1 in C. injection C as <- <-.
  rewrite T1, (undoc_forget X) in * by auto. rewrite <- (plain_forget X sp d W). now apply (C94_agree X).
Qed.

(** ** Examples and refutation *)

(** <<
m = { ? k : int / tstr , * l : [ n : uint .size 2 , ] / null , ( p : { a // b , } , ) , } a = ~ m b = & a
>>
    The tree of this document has the structure of the RFC. *)
Definition calmDoc : doc := mkDoc
  [ ([], mkDRule (str "m") ASSIGN (XBracket BMap
      (ECons [] (XPrefix PreOpt (XMember (KName (str "k")) false (XInfix (ty INT) (OChoice false) (ty TSTR)) None)) true
      (ECons [] (XPrefix PreStar (XMember (KName (str "l")) false (XInfix (XBracket BArray (ECons [] (XMember (KName (str "n")) false (XInfix (ty UINT) OSize (nu "2" 2)) None) true ENil)) (OChoice false) (ty NULL)) None)) true
      (ECons [] (XBracket BGroup (ECons [] (XMember (KName (str "p")) false (XBracket BMap (ECons [] (XInfix (rf "a") (OChoice true) (rf "b")) true ENil)) None) true ENil)) true ENil)))));
    ([], mkDRule (str "a") ASSIGN (XPrefix PreUnwrap (rf "m")));
    ([], mkDRule (str "b") ASSIGN (XPrefix PreEnum (rf "a")))] [].

(** <<
a = uint .size 2 / tstr b = { a // uint , a , }
>>
    RFC 8610 reads (uint .size 2) / tstr and a // (uint, a). In the tree these are
    uint .size (2 / tstr) and (a // uint), a. *)
Definition wildDoc : doc := mkDoc
  [ ([], mkDRule (str "a") ASSIGN (XInfix (ty UINT) OSize (XInfix (nu "2" 2) (OChoice false) (ty TSTR))));
    ([], mkDRule (str "b") ASSIGN (XBracket BMap (ECons [] (XInfix (rf "a") (OChoice true) (ty UINT)) true (ECons [] (rf "a") true ENil))))] [].

Definition tWd (t : token) : rtype1 := TPlain (TAtom (wd t)).
Definition tNm (w : string) : rtype1 := TPlain (TAtom (IDENT, str w)).
Definition tTwo : rtype2 := TAtom (INT, str "2").
Definition ent (t : rtype) : rent := Ent None (BType t).
Definition nmE (w : string) : rent := ent (TOne (tNm w)).
Definition uiE : rent := ent (TOne (tWd UINT)).
Definition wildRfc : structure :=
  [ (IDENT, str "a", wd ASSIGN, ent (TOr (TOp (TAtom (wd UINT)) (wd SIZE) tTwo) (TOne (tWd TSTR))));
    (IDENT, str "b", wd ASSIGN, entOf (TBrack BMap (GOr (CCons (nmE "a") CNil) (GOne (CCons uiE (CCons (nmE "a") CNil))))))].
Definition wildTree : structure :=
  [ (IDENT, str "a", wd ASSIGN, ent (TOne (TOp (TAtom (wd UINT)) (wd SIZE) (TParen (TOr (TPlain tTwo) (TOne (tWd TSTR)))))));
    (IDENT, str "b", wd ASSIGN, entOf (TBrack BMap (GOne (CCons (Ent None (BGrp (GOr (CCons (nmE "a") CNil) (GOne (CCons uiE CNil))))) (CCons (nmE "a") CNil)))))].

Example C94_ex : wfDoc X1 calmDoc /\ resolved [] calmDoc /\ parsesAs X1 (printDoc calmDoc) [] calmDoc /\ plainDoc calmDoc = true /\ wfDoc X1 (undoc sp0 (docTree calmDoc)) /\
  exists T, rfcReading calmDoc = Some T /\ treeReading calmDoc = Some T.
Proof.
  assert (W : wfDoc X1 calmDoc) by (unfold wfDoc, calmDoc, ty, nu, rf; cbn [dRules dFinal]; wf_by).
  assert (R : resolved [] calmDoc) by (apply resolved_by; [reflexivity|repeat constructor; simpl; intuition discriminate]).
  assert (E : envOk []) by (split; constructor).
  split; [exact W|]. split; [exact R|]. split; [now apply C16_round_trip|]. split; [reflexivity|]. split.
  - rewrite (undoc_forget X1) by auto. replace (forgetDoc sp0 calmDoc) with calmDoc by (vm_compute; reflexivity). exact W.
  - eexists. split; vm_compute; reflexivity.
Qed.

(** The full statement, that the tree always has the structure of RFC 8610, is false. *)
Theorem C94_always_refuted : exists X s d T t p, wfDoc X d /\ parsesAs X s [] d /\ clean X s [] t p /\ wfDoc X (undoc sp0 (strip t)) /\
  rfcReading (forgetDoc sp0 d) = Some T /\ rfcReading d = Some T /\ treeReading (undoc sp0 (strip t)) <> Some T.
Proof.
  assert (W : wfDoc X1 wildDoc) by (unfold wfDoc, wildDoc, ty, nu, rf; cbn [dRules dFinal]; wf_by).
  assert (R : resolved [] wildDoc) by (apply resolved_by; [reflexivity|repeat constructor; simpl; intuition discriminate]).
  assert (E : envOk []) by (split; constructor).
  pose proof (C16_round_trip X1 [] wildDoc E W R) as P. assert (F : forgetDoc sp0 wildDoc = wildDoc) by (vm_compute; reflexivity).
  destruct P as (t & p & e & C & T1 & P'). exists X1, (printDoc wildDoc), wildDoc, wildRfc, t, p.
  split; [exact W|]. split; [exact (ex_intro _ t (ex_intro _ p (ex_intro _ e (conj C (conj T1 P')))))|]. split; [exact C|].
  rewrite T1, (undoc_forget X1), F by auto. split; [exact W|]. split; [reflexivity|]. split; [reflexivity|]. intros Q. apply (C94_agree X1 wildDoc wildRfc W eq_refl) in Q. discriminate.
Qed.

Example C94_ex_wild : rfcReading wildDoc = Some wildRfc /\ treeReading wildDoc = Some wildTree /\ plainDoc wildDoc = false.
Proof. repeat split; vm_compute; reflexivity. Qed.

(** <<
a = ~ b / int
>>
    The tree unwraps a choice, which cannot be written in RFC 8610. *)
Example C94_ex_unwrap : let d := mkDoc [([], mkDRule (str "a") ASSIGN (XPrefix PreUnwrap (XInfix (rf "b") (OChoice false) (ty INT))))] [] in
  rfcReading d = Some [((IDENT, str "a"), wd ASSIGN, ent (TOr (TPlain (TUnwrap (IDENT, str "b"))) (TOne (tWd INT))))] /\ treeReading d = None.
Proof. split; vm_compute; reflexivity. Qed.
