(** Several lexers over slices of the caller's arrays: each keeps the slice [NewLexer] made
    by appending (lexer/lexer.go:52-66) and reads the source through it at every [Scan]
    (lexer/lexer.go:69-196), while the caller may go on writing to its arrays. Calls do not
    overlap in time. *)
From Verif Require Import Base SliceModel Ext Lexer.

(** lexer/lexer.go:30-38, the fields of [Lexer]: [src] is the slice [vSlice], the others are
    those of [vLex] (its own [src] is not used). *)
Record view : Type := mkView { vSlice : slice; vLex : lexer }.

(** The arrays, the next array that was never used, and the lexers made so far. *)
Record world : Type := mkWorld { wMem : heap; wFree : nat; wViews : list view }.

(** What the caller does: make a lexer for a slice, call [Scan] of the lexer made as number
    [i], write a byte to an array. *)
Inductive act : Type :=
| ANew : slice -> nat -> act
| AScan : nat -> act
| AWrite : nat -> nat -> Z -> act.

(** The lexer as it finds the memory. *)
Definition through (h : heap) (v : view) : lexer :=
  let l := vLex v in mkLexer (contents h (vSlice v)) (chr l) (offset l) (rdOffset l) (errCount l) (errors l) (lineOffsets l).

(** Replace the element number [i]. *)
Fixpoint put {A : Type} (i : nat) (x : A) (l : list A) : list A :=
  match l, i with
  | [], _ => []
  | _ :: r, O => x :: r
  | y :: r, S j => y :: put j x r
  end.

(** One call, with the token it returns. A lexer that was never made is not scanned. *)
Definition step (X : Ext) (a : act) (w : world) : res (world * list (nat * tokInfo)) :=
  match a with
  | ANew v extra =>
    (* lexer/lexer.go:52-66 *)
    let '(h, v') := newLexerBuffer (wFree w) extra (wMem w) v in
    let l := next (mkLexer (contents h v') 0 0 0 0 [] [-1]) in
    Ok (mkWorld h (S (wFree w)) (wViews w ++ [mkView v' l]), [])
  | AScan i =>
    match nth_error (wViews w) i with
    | None => Ok (w, [])
    | Some v =>
      '(t, l) <- scan X (through (wMem w) v);;
      Ok (mkWorld (wMem w) (wFree w) (put i (mkView (vSlice v) l) (wViews w)), [(i, t)])
    end
  | AWrite a k x => Ok (mkWorld (hset (wMem w) a (update (hget (wMem w) a) k x)) (wFree w) (wViews w), [])
  end.

(** The calls one after the other. *)
Fixpoint acts (X : Ext) (l : list act) (w : world) : res (world * list (nat * tokInfo)) :=
  match l with
  | [] => Ok (w, [])
  | a :: r => '(w1, o1) <- step X a w;; '(w2, o2) <- acts X r w1;; Ok (w2, o1 ++ o2)
  end.
