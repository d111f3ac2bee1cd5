(** Property C80: the texts of diagnostics. *)
From Coq Require Import String.
From Verif Require Import Base Utf8 Token Ext Strconv Lexer LexSpec LexSpec2 Ast Env Diag Parser ParseSource GoFmt Props_Lexer Props_Text Props_Report Props_Says.
Open Scope string_scope.
Open Scope list_scope.
Open Scope Z_scope.

Ltac hide := repeat match goal with
  | |- context [tokenString ?t] => generalize (tokenString t); intro
  | |- context [fmtD ?t] => generalize (fmtD t); intro
  | |- context [rangeString ?t] => generalize (rangeString t); intro
  end.
Ltac fmtstep := hide; apply sprintf_iff; cbv -[app]; cbn [app]; rewrite ?app_nil_r; reflexivity.

(** ** Specification *)

(** strings.Join *)
Inductive Joined (sep : bytes) : list bytes -> bytes -> Prop :=
| jn_nil : Joined sep [] []
| jn_one x : Joined sep [x] x
| jn_more x y l out : Joined sep (y :: l) out -> Joined sep (x :: y :: l) (x ++ sep ++ out).

Section Texts.
Variables (fmtV : node -> bytes) (quote : bytes -> bytes).

(** The formats of parser.go, with the line they are on. *)
Inductive MsgText : msg -> bytes -> Prop :=
| mt_existing w l c out :                                                                   (* 159 *)
    Sprintf (str "existing declaration for identifier %s at line %d, column %d") [w; fmtD l; fmtD c] out -> MsgText (MExisting w l c) out
| mt_assign w out :                                                                         (* 170 *)
    Sprintf (str "expected assigment operators =, /= or //= after identifer `%s`") [w] out -> MsgText (MExpectedAssign w) out
| mt_missing w out : Sprintf (str "identifier %s referenced does not exist") [w] out -> MsgText (MNotExist w) out (* 235, 877, 922 *)
| mt_literal w : MsgText (MUnexpectedLiteral w) (str "unexpected literal " ++ w)            (* 263 *)
| mt_uint : MsgText MExpectedUintLiteral (str "expected uint literal")                      (* 310 *)
| mt_tagMajor : MsgText MTagMajor (str "failed to parse tag major")                         (* 431 *)
| mt_tag w out : Sprintf (str "invalid tag %s") [w] out -> MsgText (MInvalidTag w) out      (* 482 *)
| mt_syntax w : MsgText (MNumError ErrSyntax w) (str "strconv.ParseUint: parsing " ++ quote w ++ str ": invalid syntax")    (* 487, 492 *)
| mt_range w : MsgText (MNumError ErrRange w) (str "strconv.ParseUint: parsing " ++ quote w ++ str ": value out of range")
| mt_integer : MsgText MExpectedIntegerLiteral (str "expected integer literal")             (* 618 *)
| mt_lower v t out :                                                                        (* 783 *)
    Sprintf (str "Lower bound %d to occurrence operator %s should not be less than zero") [fmtD v; tokenString t] out -> MsgText (MOccLower v t) out
| mt_occ t out : Sprintf (str "unexpected lower bound type for operator %s, should be uint") [tokenString t] out -> MsgText (MOccType t) out (* 791 *)
| mt_bounds t l r vl vr out :                                                               (* 841 *)
    Sprintf (str "operator %s expected same type min, max values. The values of %s and %s resolve to %+v and %+v")
      [tokenString t; l; r; fmtV vl; fmtV vr] out -> MsgText (MRangeTypes t l r vl vr) out
| mt_floatForInt : MsgText MFloatForInt (str "cannot use float literal as upper bound to int range")        (* 868, 884 *)
| mt_intUpper : MsgText MIntUpper (str "expected integer upper bound")                      (* 886 *)
| mt_intForFloat : MsgText MIntForFloat (str "cannot use integer literal as upper bound to float range")    (* 913, 929 *)
| mt_floatUpper : MsgText MFloatUpper (str "expected float upper bound")                    (* 931 *)
| mt_types op l toks out :                                                                  (* 944-952 *)
    Joined (str ", ") (map tokenString l) toks -> Sprintf (str "operator %s only supports tokens %s") [op; toks] out -> MsgText (MUnsupportedTypes op l) out
| mt_expected t l c out :                                                                   (* 956 *)
    Sprintf (str "expected %s at line %d, column %d") [tokenString t; fmtD l; fmtD c] out -> MsgText (MExpectedAt t l c) out
| mt_unexpected t l c out :                                                                 (* 960 *)
    Sprintf (str "unexpected token %s at line %d, column %d") [tokenString t; fmtD l; fmtD c] out -> MsgText (MUnexpectedAt t l c) out.

(** ** Proofs *)

Lemma joined_comma : forall l, Joined (str ", ") l (joinComma l).
Proof. induction l as [|x [|y l] IH]; cbn [joinComma]; constructor. exact IH. Qed.

Lemma joined_fun : forall sep l o1 o2, Joined sep l o1 -> Joined sep l o2 -> o1 = o2.
Proof.
  intros sep l o1 o2 H. revert o2. induction H as [|x|x y l out H IH]; intros o2 H2; inversion H2; subst; auto. f_equal. f_equal. auto.
Qed.


Lemma msg_text : forall m, MsgText m (renderMsg fmtV quote m).
Proof.
  intros m. destruct m; cbn [renderMsg]; try (constructor; fail); try (constructor; fmtstep).
  - apply (mt_types _ _ _ _ (joined_comma _)). generalize (joinComma (map tokenString l)). intros b. fmtstep.
  - destruct e; constructor.
Qed.

(** The text of a message is what its format says. *)
Theorem C80_message : forall m out, renderMsg fmtV quote m = out <-> MsgText m out.
Proof.
  intros m out. split; [intros <-; apply msg_text|]. intros H. pose proof (msg_text m) as K.
  inversion H; subst; inversion K; subst; try reflexivity; try (eapply sprintf_fun; eassumption).
  match goal with A : Joined _ _ ?x, B : Joined _ _ ?y |- _ => assert (x = y) by (eapply joined_fun; eassumption); subst end. eapply sprintf_fun; eassumption.
Qed.

(** [Error.String] (diagnostic.go:24-26) and [Error.Diagnostic] (29-31). *)
Theorem C80_error : forall d out out',
  (diagString fmtV quote d = out <-> exists m, MsgText (dMsg d) m /\ Sprintf (str "%s error: %s") [str "parser"; m] out) /\
  (diagDiagnostic fmtV quote d = out' <-> Sprintf (str "%s at %s") [diagString fmtV quote d; rangeString (mkRange (dStart d) (dEnd d))] out').
Proof.
  intros d out out'.
  assert (A : forall m, Sprintf (str "%s error: %s") [str "parser"; m] (str "parser error: " ++ m)) by (intros m; fmtstep).
  assert (B : forall a b, Sprintf (str "%s at %s") [a; b] (a ++ str " at " ++ b)) by (intros a b; fmtstep).
  split.
  - split.
    + intros <-. exists (renderMsg fmtV quote (dMsg d)). split; [apply msg_text|]. apply A.
    + intros (m & HM & HS). apply C80_message in HM. subst m. eapply sprintf_fun; [apply A|exact HS].
  - split.
    + intros <-. apply B.
    + intros HS. eapply sprintf_fun; [apply B|exact HS].
Qed.

(** [ErrorList.String] (diagnostic.go:64-71): the errors' strings, each on a line of its own. *)
Theorem C80_list : forall l, exists outs, Forall2 (fun d out => diagString fmtV quote d = out) l outs /\
  errorListString fmtV quote l = concat (map (fun out => out ++ [10]) outs).
Proof.
  intros l. exists (map (diagString fmtV quote) l). split.
  - induction l; cbn [map]; constructor; auto.
  - unfold errorListString. rewrite map_map. now rewrite flat_map_concat_map.
Qed.
End Texts.

(** ** The places messages name *)

(** A message that names a place names the line and column of the byte of the source where
    the diagnostic starts. *)
Theorem C80_place : forall fmtV quote X s e fuel root ds p' d, decodable s -> (parseFuel s <= fuel)%nat ->
  parseSource X fuel s e = Ok ((root, Some ds), p') -> In d ds ->
  (forall t l c, dMsg d = MExpectedAt t l c -> exists k, (k <= length s)%nat /\ dStart d = posAt s k /\
    Sprintf (str "parser error: expected %s at line %d, column %d") [tokenString t; fmtD (pLine (posAt s k)); fmtD (pColumn (posAt s k))] (diagString fmtV quote d)) /\
  (forall t l c, dMsg d = MUnexpectedAt t l c -> exists k, (k <= length s)%nat /\ dStart d = posAt s k /\
    Sprintf (str "parser error: unexpected token %s at line %d, column %d") [tokenString t; fmtD (pLine (posAt s k)); fmtD (pColumn (posAt s k))] (diagString fmtV quote d)).
Proof.
  intros fmtV quote X s e fuel root ds p' d D HF H HI. pose proof (C79_true _ _ _ _ _ _ _ D H) as K. rewrite Forall_forall in K. specialize (K _ HI).
  destruct (C26_positions _ _ _ _ _ _ _ D HF H) as [_ P]. rewrite Forall_forall in P. destruct (P _ HI) as (k & L & EP). unfold diagString.
  split; intros t l c E; exists k; rewrite <- EP; (split; [exact L|]); (split; [reflexivity|]); rewrite E; cbn [renderMsg].
  - assert (EL : l = pLine (dStart d) /\ c = pColumn (dStart d)).
    { inversion K; subst d; cbn [dMsg dStart at_ expected] in E; try discriminate; try (injection E as _ <- <-; auto).
      - destruct (typeOf v) as [[]|]; discriminate.
      - destruct (typeOf v) as [[]|]; discriminate. }
    destruct EL as [-> ->]. fmtstep.
  - assert (EL : l = pLine (dStart d) /\ c = pColumn (dStart d)).
    { inversion K; subst d; cbn [dMsg dStart at_ expected] in E; try discriminate; try (injection E as _ <- <-; auto).
      - destruct (typeOf v) as [[]|]; discriminate.
      - destruct (typeOf v) as [[]|]; discriminate. }
    destruct EL as [-> ->]. fmtstep.
Qed.

(** ** Examples *)

Example C80_ex : match parse X0 faulty with
  | Ok ((_, Some ds), _) => map (diagDiagnostic (fun _ => []) (fun w => w)) ds
  | _ => []
  end = [str "parser error: existing declaration for identifier a at line 1, column 5 at line 2, column 1 ~ 1";
         str "parser error: expected float at line 3, column 8 at line 3, column 8 ~ 8";
         str "parser error: unexpected token ) at line 4, column 5 at line 4, column 5 ~ 5";
         str "parser error: expected assigment operators =, /= or //= after identifer `e` at line 5, column 1 ~ 1";
         str "parser error: identifier b referenced does not exist at line 2, column 5 ~ 5"].
Proof. vm_compute. reflexivity. Qed.
