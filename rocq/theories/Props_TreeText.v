(** Property C81: the text of the tree printer. *)
From Coq Require Import String.
From Verif Require Import Base Token Ast Print GoFmt Props_Text Props_Messages.
Open Scope string_scope.
Open Scope list_scope.
Open Scope Z_scope.

(** ** Specification *)

(** The operand of %T. *)
Definition Type_ (n : node) (t : bytes) : Prop := match typeOf n with Some k => t = kindName k | None => t = str "<nil>" end.

(** print.go:83-85 *)
Definition PosText (p : position) (t : bytes) : Prop := Sprintf (str "{ Column: %d, Line: %d }") [fmtD (pColumn p); fmtD (pLine p)] t.

(** A line break in a Go format. *)
Definition n_ (a b : string) : bytes := str a ++ 10 :: str b.

Section Printed.
Variable fmtF : Z -> bytes.

(** [Printed k n t]: [t] is what the printer gives for [n] at depth [k]. A choice or an
    enumeration starts new lines, indented by as many tabs as it is deep, for its parts; all
    that is shown of a group is how many entries it has; of a node of any other type, the type. *)
Inductive Printed : nat -> node -> bytes -> Prop :=
| pr_ident k i p t : PosText (iPos i) p -> Sprintf (str "Ident ( Name: '%s' ) %s") [iName i; p] t -> Printed k (NIdentifier i) t
| pr_choice k q tok a b p x y t : PosText q p -> Printed (S k) a x -> Printed (S k) b y ->
    Sprintf (n_ "TypeChoice %s (" "%sFirst  : %s, " ++ n_ "" "%sSecond : %s" ++ n_ "" ")") [p; repeat 9 k; x; repeat 9 k; y] t ->
    Printed k (NTypeChoice q tok a b) t
| pr_int k q tok v p t : PosText q p -> Sprintf (str "IntegerLiteral (Literal: '%d') %s") [fmtD v; p] t -> Printed k (NIntegerLiteral q tok v) t
| pr_float k r tok v p t : PosText (rStart r) p -> Sprintf (str "FloatLiteral ( Literal: '%f' ) %s") [fmtF v; p] t -> Printed k (NFloatLiteral r tok v) t
| pr_intType k q tok p t : PosText q p -> Sprintf (str "IntegerType ( Token: '%s' ) %s") [tokenString tok; p] t -> Printed k (NIntegerType q tok) t
| pr_floatType k q tok b p t : PosText q p -> Sprintf (str "FloatType ( Token: '%s' ) %s") [tokenString tok; p] t -> Printed k (NFloatType q tok b) t
| pr_enum k q tok v p x t : PosText q p -> Printed (S k) v x ->
    Sprintf (n_ "Enumeration %s (" "%sValue: %s" ++ n_ "" "%s)") [p; repeat 9 k; x; repeat 9 k] t -> Printed k (NEnumeration q tok v) t
| pr_group k q l p t : PosText q p ->
    Sprintf (n_ "Group %s (" "%sEntries: %d" ++ n_ "" "%s)") [p; repeat 9 (S k); fmtD (zlen l); repeat 9 k] t -> Printed k (NGroup q l) t
| pr_other k n t :
    ~ In (typeOf n) (map Some [KIdentifier; KTypeChoice; KIntegerLiteral; KFloatLiteral; KIntegerType; KFloatType; KEnumeration; KGroup]) ->
    Type_ n t -> Printed k n t.

(** What the text shows of a tree. *)
Inductive shown : Type :=
| ShIdent (name : bytes) (line col : Z)
| ShChoice (line col : Z) (a b : shown)
| ShInt (v line col : Z)
| ShFloat (text : bytes) (line col : Z)
| ShIntType (tok : bytes) (line col : Z)
| ShFloatType (tok : bytes) (line col : Z)
| ShEnum (line col : Z) (v : shown)
| ShGroup (entries line col : Z)
| ShOther (k : option kind).

Fixpoint show (n : node) : shown :=
  match n with
  | NIdentifier i => ShIdent (iName i) (pLine (iPos i)) (pColumn (iPos i))
  | NTypeChoice q _ a b => ShChoice (pLine q) (pColumn q) (show a) (show b)
  | NIntegerLiteral q _ v => ShInt v (pLine q) (pColumn q)
  | NFloatLiteral r _ v => ShFloat (fmtF v) (pLine (rStart r)) (pColumn (rStart r))
  | NIntegerType q t => ShIntType (tokenString t) (pLine q) (pColumn q)
  | NFloatType q t _ => ShFloatType (tokenString t) (pLine q) (pColumn q)
  | NEnumeration q _ v => ShEnum (pLine q) (pColumn q) (show v)
  | NGroup q l => ShGroup (zlen l) (pLine q) (pColumn q)
  | n => ShOther (typeOf n)
  end.

(** No name and no float reads like the quote that ends it. *)
Fixpoint quoteless (n : node) : Prop :=
  match n with
  | NIdentifier i => ~ In 39 (iName i)
  | NFloatLiteral _ _ v => ~ In 39 (fmtF v)
  | NTypeChoice _ _ a b => quoteless a /\ quoteless b
  | NEnumeration _ _ v => quoteless v
  | _ => True
  end.

(** ** The text *)

Lemma pos_text : forall p, PosText p (formatPosition p).
Proof. intros p. unfold PosText, formatPosition. fmtstep. Qed.

Ltac fmtp := repeat match goal with |- context [formatPosition ?p] => generalize (formatPosition p); intro
  | |- context [tabs ?k] => change (tabs k) with (repeat 9 k) | |- context [repeat 9 ?k] => generalize (repeat 9 k); intro end; fmtstep.

Ltac fmtg := repeat match goal with |- context [formatPosition ?p] => generalize (formatPosition p); intro
  | |- context [tabs ?k] => change (tabs k) with (repeat 9 k) | |- context [repeat 9 ?k] => generalize (repeat 9 k); intro end;
  hide; apply sprintf_iff; cbv -[app]; cbn [app]; rewrite <- !app_assoc; reflexivity.

Lemma ok_inj : forall (A : Type) (a b : A), Ok a = Ok b -> a = b.
Proof. intros A a b H. now injection H. Qed.

Lemma printed_format : forall n k t, formatNode fmtF k n = Ok t -> Printed k n t.
Proof.
  fix IH 1. intros n k t H.
  destruct n; cbn [formatNode] in H;
    try (apply ok_inj in H; subst t; apply pr_other; [simpl; intuition discriminate|reflexivity]).
  - destruct k0; try discriminate; cbn [rbind] in H; apply ok_inj in H; subst t; apply pr_other; try (simpl; intuition discriminate); reflexivity.
  - cbn [rbind] in H; apply ok_inj in H; subst t. eapply pr_ident; [apply pos_text|]. generalize (iName i); intros. fmtp.
  - cbn [rbind] in H; apply ok_inj in H; subst t. eapply pr_floatType; [apply pos_text|]. fmtp.
  - cbn [rbind] in H; apply ok_inj in H; subst t. eapply pr_float; [apply pos_text|]. generalize (fmtF bits); intros. fmtp.
  - cbn [rbind] in H; apply ok_inj in H; subst t. eapply pr_intType; [apply pos_text|]. fmtp.
  - cbn [rbind] in H; apply ok_inj in H; subst t. eapply pr_int; [apply pos_text|]. fmtp.
  - destruct (formatNode fmtF (S k) n1) as [x| | |] eqn:E1; try discriminate. destruct (formatNode fmtF (S k) n2) as [y| | |] eqn:E2; try discriminate.
    cbn [rbind] in H; apply ok_inj in H; subst t. eapply pr_choice; [apply pos_text|apply IH; exact E1|apply IH; exact E2|]. fmtp.
  - destruct (formatNode fmtF (S k) n) as [x| | |] eqn:E1; try discriminate. cbn [rbind] in H; apply ok_inj in H; subst t. eapply pr_enum; [apply pos_text|apply IH; exact E1|]. fmtp.
  - cbn [rbind] in H; apply ok_inj in H; subst t. eapply pr_group; [apply pos_text|]. rewrite (repeat_cons k 9 : repeat 9 (S k) = repeat 9 k ++ [9]). fmtg.
Qed.

Lemma pos_fun : forall p t, PosText p t -> t = formatPosition p.
Proof. intros p t H. eapply sprintf_fun; [exact H|apply pos_text]. Qed.

Lemma format_printed : forall k n t, Printed k n t -> formatNode fmtF k n = Ok t.
Proof.
  intros k n t H. induction H as [k i p t HP HS|k q tok a b p x y t HP HA IA HB IB HS|k q tok v p t HP HS|k r tok v p t HP HS|k q tok p t HP HS|k q tok b p t HP HS
    |k q tok v p x t HP HV IV HS|k q l p t HP HS|k n t HN HT];
    try (apply pos_fun in HP; subst p); cbn [formatNode]; rewrite ?IA, ?IB, ?IV; cbn [rbind];
    try (f_equal; eapply sprintf_fun; [|exact HS]; change (tabs k) with (repeat 9 k)).
  - generalize (iName i); intros. fmtp.
  - fmtp.
  - fmtp.
  - generalize (fmtF v); intros. fmtp.
  - fmtp.
  - fmtp.
  - fmtp.
  - rewrite (repeat_cons k 9 : repeat 9 (S k) = repeat 9 k ++ [9]). fmtg.
  - unfold Type_ in HT. destruct n; cbn [typeOf] in *; subst t; try reflexivity; try (exfalso; apply HN; simpl; tauto).
    destruct k0; try reflexivity; exfalso; apply HN; simpl; tauto.
Qed.

(** [Format] returns the printed text, at depth one. *)
Theorem C81_text : forall n t, format fmtF n = Ok t <-> Printed 1 n t.
Proof. intros n t. split; [apply printed_format|apply format_printed]. Qed.

(** ** Reading it back *)

Definition follows (r : bytes) : Prop := r = [] \/ hd 0 r = 44 \/ hd 0 r = 10.

Lemma pos_read : forall p q r r', formatPosition p ++ r = formatPosition q ++ r' -> pLine p = pLine q /\ pColumn p = pColumn q /\ r = r'.
Proof.
  intros p q r r' E. unfold formatPosition in E. rewrite <- !app_assoc in E. apply app_inv_head in E.
  assert (K : forall a b x y, fmtD a ++ str ", Line: " ++ x = fmtD b ++ str ", Line: " ++ y -> a = b /\ x = y).
  { intros a b x y H. change (str ", Line: ") with (44 :: str " Line: ") in H. cbn [app] in H. apply num_split in H as (-> & _ & H); try notnum. split; auto.
    apply (app_inv_head (str " Line: ")). exact H. }
  apply K in E as [E1 E]. assert (K2 : forall a b x y, fmtD a ++ str " }" ++ x = fmtD b ++ str " }" ++ y -> a = b /\ x = y).
  { intros a b x y H. change (str " }") with (32 :: str "}") in H. cbn [app] in H. apply num_split in H as (-> & _ & H); try notnum. split; auto.
    apply (app_inv_head (str "}")). exact H. }
  apply K2 in E as [E2 E]. auto.
Qed.

Lemma quote_read : forall a b r r', ~ In 39 a -> ~ In 39 b -> a ++ 39 :: r = b ++ 39 :: r' -> a = b /\ r = r'.
Proof.
  intros a b r r' HA HB E. assert (F : forall x, ~ In 39 x -> Forall (fun c => c <> 39) x).
  { intros x H. apply Forall_forall. intros c HC ->. contradiction. }
  destruct (split_run (fun c => c <> 39) _ _ _ _ _ _ (F _ HA) (F _ HB) (fun N => N eq_refl) (fun N => N eq_refl) E) as (-> & _ & ->). auto.
Qed.

Lemma token_quote : forall t, ~ In 39 (tokenString t).
Proof. intros t H. destruct t; vm_compute in H; intuition discriminate. Qed.

(** The characters of a type's name. *)
Definition typeText (k : option kind) : bytes := match k with Some k => kindName k | None => str "<nil>" end.

Lemma type_read : forall k k' r r', follows r -> follows r' -> typeText k ++ r = typeText k' ++ r' -> k = k' /\ r = r'.
Proof.
  assert (A : forall k, Forall (fun c => c <> 44 /\ c <> 10) (typeText k)).
  { intros k. destruct k as [k|]; [destruct k|]; vm_compute; repeat (constructor; [split; discriminate|]); constructor. }
  assert (B : forall k k', typeText k = typeText k' -> k = k').
  { intros [k|] [k'|] E; auto; [|destruct k; discriminate E|destruct k'; discriminate E]. f_equal.
    destruct k; destruct k'; reflexivity || (exfalso; vm_compute in E; discriminate E). }
  intros k k' r r' F F' E.
  assert (C : forall a b r r', Forall (fun c => c <> 44 /\ c <> 10) a -> Forall (fun c => c <> 44 /\ c <> 10) b -> follows r -> follows r' -> a ++ r = b ++ r' -> a = b /\ r = r').
  { clear. induction a as [|c a IH]; intros [|d b] r r' HA HB F F' E; cbn [app] in E.
    - auto.
    - exfalso. subst r. inversion HB as [|? ? [N1 N2] _]; subst. destruct F as [F|[F|F]]; cbn [hd] in F; congruence.
    - exfalso. subst r'. inversion HA as [|? ? [N1 N2] _]; subst. destruct F' as [G|[G|G]]; cbn [hd] in G; congruence.
    - injection E as <- E. inversion HA; inversion HB; subst. destruct (IH b r r') as [-> ->]; auto. }
  destruct (C _ _ _ _ (A k) (A k') F F' E) as [E1 ->]. apply B in E1. auto.
Qed.

Inductive View (k : nat) : node -> bytes -> Prop :=
| vIdent i : ~ In 39 (iName i) -> View k (NIdentifier i) (str "Ident ( Name: '" ++ iName i ++ 39 :: str " ) " ++ formatPosition (iPos i))
| vChoice q tok a b x y : quoteless a -> quoteless b -> formatNode fmtF (S k) a = Ok x -> formatNode fmtF (S k) b = Ok y ->
    View k (NTypeChoice q tok a b) (str "TypeChoice " ++ formatPosition q ++ str " (" ++ [10] ++ tabs k ++ str "First  : " ++ x ++ str ", " ++ [10] ++ tabs k ++ str "Second : " ++ y ++ [10] ++ str ")")
| vInt q tok v : View k (NIntegerLiteral q tok v) (str "IntegerLiteral (Literal: '" ++ fmtD v ++ 39 :: str ") " ++ formatPosition q)
| vFloat r tok v : ~ In 39 (fmtF v) -> View k (NFloatLiteral r tok v) (str "FloatLiteral ( Literal: '" ++ fmtF v ++ 39 :: str " ) " ++ formatPosition (rStart r))
| vIntType q tok : View k (NIntegerType q tok) (str "IntegerType ( Token: '" ++ tokenString tok ++ 39 :: str " ) " ++ formatPosition q)
| vFloatType q tok b : View k (NFloatType q tok b) (str "FloatType ( Token: '" ++ tokenString tok ++ 39 :: str " ) " ++ formatPosition q)
| vEnum q tok v x : quoteless v -> formatNode fmtF (S k) v = Ok x ->
    View k (NEnumeration q tok v) (str "Enumeration " ++ formatPosition q ++ str " (" ++ [10] ++ tabs k ++ str "Value: " ++ x ++ [10] ++ tabs k ++ str ")")
| vGroup q l : View k (NGroup q l) (str "Group " ++ formatPosition q ++ str " (" ++ [10] ++ tabs k ++ [9] ++ str "Entries: " ++ fmtD (zlen l) ++ [10] ++ tabs k ++ str ")")
| vOther n : show n = ShOther (typeOf n) -> View k n (typeText (typeOf n)).

Lemma view : forall n k t, quoteless n -> formatNode fmtF k n = Ok t -> View k n t.
Proof.
  intros n k t Q H. destruct n; cbn [formatNode quoteless] in *;
    try (apply ok_inj in H; subst t; refine (vOther k _ _); reflexivity).
  - destruct k0; try discriminate; apply ok_inj in H; subst t; refine (vOther k (NTypedNil _) _); reflexivity.
  - injection H as <-. now apply vIdent.
  - injection H as <-. apply vFloatType.
  - injection H as <-. now apply vFloat.
  - injection H as <-. apply vIntType.
  - injection H as <-. apply vInt.
  - destruct (formatNode fmtF (S k) n1) as [x| | |] eqn:E1; try discriminate. destruct (formatNode fmtF (S k) n2) as [y| | |] eqn:E2; try discriminate.
    injection H as <-. apply vChoice; tauto.
  - destruct (formatNode fmtF (S k) n) as [x| | |] eqn:E1; try discriminate. injection H as <-. now apply vEnum.
  - injection H as <-. apply vGroup.
Qed.

Lemma typeText_head : forall k, hd 0 (typeText k) = 42 \/ hd 0 (typeText k) = 60.
Proof. intros [[]|]; cbn; auto. Qed.

Lemma read_step : forall m a b k x y r r', (length x <= m)%nat -> quoteless a -> quoteless b -> formatNode fmtF k a = Ok x -> formatNode fmtF k b = Ok y ->
  follows r -> follows r' -> x ++ r = y ++ r' -> show a = show b /\ r = r'.
Proof.
  induction m as [m IH] using lt_wf_ind. intros a b k x y r r' L QA QB EA EB F F' E.
  pose proof (view _ _ _ QA EA) as VA. pose proof (view _ _ _ QB EB) as VB. clear EA EB QA QB.
  assert (HD : forall (k0 : option kind) z c w, typeText k0 ++ z = c :: w -> c = 42 \/ c = 60).
  { clear. intros k0 z c w E. pose proof (typeText_head k0) as H. destruct (typeText k0) as [|d t]; cbn [hd app] in *; [lia|]. injection E as <- _. exact H. }
  destruct VA as [i HI|q tok a1 a2 x1 x2 Q1 Q2 E1 E2|q tok v|rg tok v HV|q tok|q tok bs|q tok a1 x1 Q1 E1|q l|n HN];
    destruct VB as [i' HI'|q' tok' b1 b2 y1 y2 Q1' Q2' E1' E2'|q' tok' v'|rg' tok' v' HV'|q' tok'|q' tok' bs'|q' tok' b1 y1 Q1' E1'|q' l'|n' HN'];
    try discriminate E; try (exfalso; apply HD in E; revert E; vm_compute; intuition discriminate);
    try (exfalso; symmetry in E; apply HD in E; revert E; vm_compute; intuition discriminate); clear HD;
    cbn [show]; try rewrite <- !app_assoc in E; try (apply app_inv_head in E).
  - cbn [app] in E. apply quote_read in E as [-> E]; auto. rewrite <- !app_assoc in E. apply app_inv_head in E. apply pos_read in E as (-> & -> & ->). auto.
  - apply pos_read in E as (-> & -> & E). do 4 apply app_inv_head in E. rewrite !app_length in L. cbn [length] in L. change (length (str "First  : ")) with 9%nat in L.
    pose proof (fun z z' => IH (length x1) ltac:(lia) a1 b1 (S k) x1 y1 z z' (le_n _) Q1 Q1' E1 E1') as K. apply K in E as [-> E3]; [|right; left; reflexivity..].
    do 4 apply app_inv_head in E3.
    pose proof (fun z z' => IH (length x2) ltac:(lia) a2 b2 (S k) x2 y2 z z' (le_n _) Q2 Q2' E2 E2') as K2. apply K2 in E3 as [-> E4]; [|right; right; reflexivity..].
    do 2 apply app_inv_head in E4. auto.
  - cbn [app] in E. apply num_split in E as (-> & _ & E); try notnum. rewrite <- !app_assoc in E. apply app_inv_head in E. apply pos_read in E as (-> & -> & ->). auto.
  - cbn [app] in E. apply quote_read in E as [-> E]; auto. rewrite <- !app_assoc in E. apply app_inv_head in E. apply pos_read in E as (-> & -> & ->). auto.
  - cbn [app] in E. apply quote_read in E as [-> E]; auto using token_quote. rewrite <- !app_assoc in E. apply app_inv_head in E. apply pos_read in E as (-> & -> & ->). auto.
  - cbn [app] in E. apply quote_read in E as [-> E]; auto using token_quote. rewrite <- !app_assoc in E. apply app_inv_head in E. apply pos_read in E as (-> & -> & ->). auto.
  - apply pos_read in E as (-> & -> & E). do 4 apply app_inv_head in E. rewrite !app_length in L. cbn [length] in L. change (length (str "Value: ")) with 7%nat in L.
    pose proof (fun z z' => IH (length x1) ltac:(lia) a1 b1 (S k) x1 y1 z z' (le_n _) Q1 Q1' E1 E1') as K. apply K in E as [-> E3]; [|right; right; reflexivity..].
    do 3 apply app_inv_head in E3. auto.
  - apply pos_read in E as (-> & -> & E). do 5 apply app_inv_head in E. cbn [app] in E. apply num_split in E as (-> & _ & E); try notnum. do 2 apply app_inv_head in E. auto.
  - rewrite HN, HN'. apply type_read in E as [-> ->]; auto.
Qed.

Definition posOf (line col : Z) : position := mkPos [] 0 line col.

(** The text, from what is shown. *)
Fixpoint textOf (k : nat) (x : shown) : res bytes :=
  match x with
  | ShIdent w l c => formatNode fmtF k (NIdentifier (mkIdent (posOf l c) w))
  | ShChoice l c a b =>
    u <- textOf (S k) a;; v <- textOf (S k) b;;
    Ok (str "TypeChoice " ++ formatPosition (posOf l c) ++ str " (" ++ nl ++ tabs k ++ str "First  : " ++ u ++ str ", " ++ nl
        ++ tabs k ++ str "Second : " ++ v ++ nl ++ str ")")
  | ShInt v l c => formatNode fmtF k (NIntegerLiteral (posOf l c) INT v)
  | ShFloat w l c => Ok (str "FloatLiteral ( Literal: '" ++ w ++ str "' ) " ++ formatPosition (posOf l c))
  | ShIntType w l c => Ok (str "IntegerType ( Token: '" ++ w ++ str "' ) " ++ formatPosition (posOf l c))
  | ShFloatType w l c => Ok (str "FloatType ( Token: '" ++ w ++ str "' ) " ++ formatPosition (posOf l c))
  | ShEnum l c v =>
    u <- textOf (S k) v;; Ok (str "Enumeration " ++ formatPosition (posOf l c) ++ str " (" ++ nl ++ tabs k ++ str "Value: " ++ u ++ nl ++ tabs k ++ str ")")
  | ShGroup n l c => Ok (str "Group " ++ formatPosition (posOf l c) ++ str " (" ++ nl ++ tabs k ++ [9] ++ str "Entries: " ++ fmtD n ++ nl ++ tabs k ++ str ")")
  | ShOther (Some kd) => formatNode fmtF k (NTypedNil kd)
  | ShOther None => formatNode fmtF k NNil
  end.

Lemma text_of_show : forall n k, formatNode fmtF k n = textOf k (show n).
Proof.
  fix IH 1. intros n k. destruct n; try reflexivity; cbn [formatNode show textOf].
  - rewrite (IH n1), (IH n2). reflexivity.
  - rewrite (IH n). reflexivity.
Qed.

(** The text tells all it shows, and nothing else: trees have the same text exactly when
    they show the same. *)
Theorem C81_reads_back : forall a b t, quoteless a -> quoteless b -> format fmtF a = Ok t -> (format fmtF b = Ok t <-> show a = show b).
Proof.
  intros a b t QA QB HA. split.
  - intros HB. refine (proj1 (read_step (length t) a b 1 t t [] [] (le_n _) QA QB HA HB _ _ eq_refl)); now left.
  - intros E. unfold format in *. rewrite text_of_show in *. now rewrite <- E.
Qed.
End Printed.

(** ** Examples *)

Definition sampleTree : node :=
  NTypeChoice (mkPos [] 6 1 7) TYPE_CHOICE (NIdentifier (mkIdent (mkPos [] 4 1 5) (str "b")))
    (NEnumeration (mkPos [] 8 1 9) AMPERSAND (NGroup (mkPos [] 9 1 10) [NNil; NNil])).

Example C81_ex : quoteless (fun _ => []) sampleTree /\
  format (fun _ => []) sampleTree = Ok (concat
    [str "TypeChoice { Column: 7, Line: 1 } ("; [10; 9]; str "First  : Ident ( Name: 'b' ) { Column: 5, Line: 1 }, "; [10; 9];
     str "Second : Enumeration { Column: 9, Line: 1 } ("; [10; 9; 9]; str "Value: Group { Column: 10, Line: 1 } (";
     [10; 9; 9; 9; 9]; str "Entries: 2"; [10; 9; 9; 9]; str ")"; [10; 9; 9]; str ")"; [10]; str ")"]).
Proof. split; [simpl; intuition discriminate|]. vm_compute. reflexivity. Qed.

(** Two groups with as many entries at the same place look alike. *)
Example C81_ex_groups : forall q a b, format (fun _ => []) (NGroup q [a]) = format (fun _ => []) (NGroup q [b]).
Proof. reflexivity. Qed.
