(** What [fmt.Sprintf] does, for the verbs used in /repo. *)
From Coq Require Import String.
From Verif Require Import Base.
Open Scope string_scope.
Open Scope list_scope.
Open Scope Z_scope.

(** The verbs s, d, v, f, T. *)
Definition verb (c : Z) : Prop := In c (str "sdvfT").

(** [Sprintf f args out]: [out] is the format [f] with each verb replaced by the text of
    its operand, in order, nothing left over. '%' is 37, '+' is 43. Package fmt is not
    part of /repo; that it does this for these verbs is trusted. *)
Inductive Sprintf : bytes -> list bytes -> bytes -> Prop :=
| sp_end : Sprintf [] [] []
| sp_char c f args out : c <> 37 -> Sprintf f args out -> Sprintf (c :: f) args (c :: out)
| sp_verb c f a args out : verb c -> Sprintf f args out -> Sprintf (37 :: c :: f) (a :: args) (a ++ out)
| sp_plus f a args out : Sprintf f args out -> Sprintf (37 :: 43 :: 118 :: f) (a :: args) (a ++ out).

Fixpoint sprintf (f : bytes) (args : list bytes) : option bytes :=
  match f with
  | [] => match args with [] => Some [] | _ => None end
  | c :: f1 =>
    if c =? 37 then
      match f1, args with
      | v :: f2, a :: args' =>
        if v =? 43 then
          match f2 with w :: f3 => if w =? 118 then option_map (app a) (sprintf f3 args') else None | [] => None end
        else if existsb (Z.eqb v) (str "sdvfT") then option_map (app a) (sprintf f2 args') else None
      | _, _ => None
      end
    else option_map (cons c) (sprintf f1 args)
  end.

Lemma sprintf_iff : forall f args out, Sprintf f args out <-> sprintf f args = Some out.
Proof.
  intros f args out. split.
  - induction 1 as [|c f args out N H IH|c f a args out V H IH|f a args out H IH]; cbn [sprintf].
    + reflexivity.
    + apply Z.eqb_neq in N. rewrite N, IH. reflexivity.
    + cbn [Z.eqb]. unfold verb in V. assert (E : existsb (Z.eqb c) (str "sdvfT") = true).
      { apply existsb_exists. exists c. split; auto. apply Z.eqb_refl. }
      assert (N : (c =? 43) = false). { apply Z.eqb_neq. intros ->. cbn in V. intuition discriminate. }
      rewrite N, E, IH. reflexivity.
    + rewrite IH. reflexivity.
  - revert args out. assert (K : forall n f args out, (length f <= n)%nat -> sprintf f args = Some out -> Sprintf f args out).
    { induction n as [|n IH]; intros g args out L H; destruct g as [|c g]; cbn [length] in L; try lia.
      - cbn in H. destruct args; [|discriminate]. injection H as <-. constructor.
      - cbn in H. destruct args; [|discriminate]. injection H as <-. constructor.
      - cbn [sprintf] in H. destruct (Z.eqb_spec c 37) as [->|N].
        + destruct g as [|v g]; [discriminate|]. destruct args as [|a args]; [discriminate|]. destruct (Z.eqb_spec v 43) as [->|N].
          * destruct g as [|w g]; [discriminate|]. destruct (Z.eqb_spec w 118) as [->|]; [|discriminate].
            destruct (sprintf g args) eqn:E; [|discriminate]. injection H as <-. apply sp_plus. apply IH; auto. cbn [length] in L. lia.
          * destruct (existsb (Z.eqb v) (str "sdvfT")) eqn:EV; [|discriminate]. destruct (sprintf g args) eqn:E; [|discriminate]. injection H as <-.
            apply sp_verb; [|apply IH; auto; cbn [length] in L; lia]. apply existsb_exists in EV. destruct EV as (x & HI & HX). apply Z.eqb_eq in HX. now subst x.
        + destruct (sprintf g args) eqn:E; [|discriminate]. injection H as <-. apply sp_char; auto. apply IH; auto. lia. }
    intros args out. apply (K (length f)). lia.
Qed.

Lemma sprintf_fun : forall f args o1 o2, Sprintf f args o1 -> Sprintf f args o2 -> o1 = o2.
Proof. intros f args o1 o2 H1 H2. apply sprintf_iff in H1. apply sprintf_iff in H2. congruence. Qed.
