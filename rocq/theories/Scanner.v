(** bufio.Scanner with ScanLines (bufio/scan.go) over the standard input, with the buffer it
    shares with its caller: cmd/cddlc/commands/repl.go:23, 32, 72, 75. The lexer appends a
    space to [scanner.Bytes()] (lexer/lexer.go:55), which writes into that buffer. *)
From Coq Require Import String.
From Verif Require Import Base SliceModel Ext Env Repl Cli Main.
Open Scope string_scope.
Open Scope list_scope.
Open Scope Z_scope.

(** What stops a scanner: the end of the input, or a line that does not fit. *)
Inductive scanErr : Type := SEof | STooLong.

(** bufio.Scanner: the buffer is the array [bArr] of length [bLen], its data are the cells
    from [bStart] to [bEnd]. The reader is the rest of the input and the number of bytes
    that are there when it is asked (at least one, until the input ends; all of it when the
    list is used up). *)
Record scanner : Type := mkScanner {
  bArr : nat; bLen : nat; bStart : nat; bEnd : nat; bErr : option scanErr;
  bRest : bytes; bSizes : list nat
}.

(** The memory, and the next array that was never used. *)
Record memory : Type := mkMem { mHeap : heap; mNext : nat }.

(** bufio.NewScanner: no buffer yet. *)
Definition newScanner (stdin : bytes) (sizes : list nat) : scanner := mkScanner 0 0 0 0 None stdin sizes.
Definition newMemory : memory := mkMem [(0%nat, [])] 1.

(** bytes.IndexByte(data, '\n') *)
Fixpoint indexLF (d : bytes) : option nat :=
  match d with
  | [] => None
  | b :: r => if b =? 10 then Some O else match indexLF r with Some i => Some (S i) | None => None end
  end.

(** dropCR on a slice. *)
Definition cutCR (h : heap) (v : slice) : slice :=
  if (0 <? sLen v)%nat && (last (contents h v) 0 =? 13) then mkSlice (sArr v) (sOff v) (sLen v - 1) (sCap v) else v.

(** bufio.ScanLines: how far to advance and the token. *)
Definition scanLine (h : heap) (v : slice) (atEOF : bool) : option (nat * slice) :=
  if atEOF && (sLen v =? 0)%nat then None
  else match indexLF (contents h v) with
       | Some i => Some (S i, cutCR h (mkSlice (sArr v) (sOff v) i (sCap v)))
       | None => if atEOF then Some (sLen v, cutCR h v) else None
       end.

(** startBufSize of bufio; the largest size is [maxTokenSize] of Main.v. *)
Definition startBufSize : Z := 4096.

(** The first part of the loop of Scan: a token from what is in the buffer. *)
Definition tryToken (m : memory) (s : scanner) : option (slice * scanner) :=
  let err := match bErr s with Some _ => true | None => false end in
  if (bStart s <? bEnd s)%nat || err then
    match scanLine (mHeap m) (mkSlice (bArr s) (bStart s) (bEnd s - bStart s) (bLen s - bStart s)) err with
    | Some (n, v) => Some (v, mkScanner (bArr s) (bLen s) (bStart s + n) (bEnd s) (bErr s) (bRest s) (bSizes s))
    | None => None
    end
  else None.

(** Go's copy(dst[0:], src) for a source in the same array or another. *)
Definition overwrite (dst src : bytes) : bytes := src ++ skipn (length src) dst.

(** Shifting the data to the beginning of the buffer. *)
Definition shift (m : memory) (s : scanner) : memory * scanner :=
  if (0 <? bStart s)%nat && ((bEnd s =? bLen s)%nat || (bLen s / 2 <? bStart s)%nat) then
    let data := firstn (bEnd s - bStart s) (skipn (bStart s) (hget (mHeap m) (bArr s))) in
    (mkMem (hset (mHeap m) (bArr s) (overwrite (hget (mHeap m) (bArr s)) data)) (mNext m),
     mkScanner (bArr s) (bLen s) 0 (bEnd s - bStart s) (bErr s) (bRest s) (bSizes s))
  else (m, s).

(** Growing a full buffer into a new array; [None] when it may not grow. *)
Definition grow (m : memory) (s : scanner) : option (memory * scanner) :=
  if (bEnd s =? bLen s)%nat then
    if maxTokenSize <=? Z.of_nat (bLen s) then None
    else
      let size := Z.min maxTokenSize (if (bLen s =? 0)%nat then startBufSize else 2 * Z.of_nat (bLen s)) in
      let data := firstn (bEnd s - bStart s) (skipn (bStart s) (hget (mHeap m) (bArr s))) in
      Some (mkMem (hset (mHeap m) (mNext m) (overwrite (repeat 0 (Z.to_nat size)) data)) (S (mNext m)),
            mkScanner (mNext m) (Z.to_nat size) 0 (bEnd s - bStart s) (bErr s) (bRest s) (bSizes s))
  else Some (m, s).

(** Reading: between one byte and the room there is; at the end of the input os.Stdin
    returns no bytes and io.EOF. *)
Definition readMore (m : memory) (s : scanner) : memory * scanner :=
  match bRest s with
  | [] => (m, mkScanner (bArr s) (bLen s) (bStart s) (bEnd s) (Some SEof) [] (bSizes s))
  | _ =>
    let room := (bLen s - bEnd s)%nat in
    let n := Nat.min room (match bSizes s with [] => length (bRest s) | k :: _ => Nat.max 1 k end) in
    let chunk := firstn n (bRest s) in
    let a := hget (mHeap m) (bArr s) in
    (mkMem (hset (mHeap m) (bArr s) (firstn (bEnd s) a ++ chunk ++ skipn (bEnd s + length chunk) a)) (mNext m),
     mkScanner (bArr s) (bLen s) (bStart s) (bEnd s + length chunk) None (skipn n (bRest s)) (tl (bSizes s)))
  end.

(** Scanner.Scan; the fuel bounds the rounds of its loop, each of which reads something or
    meets the end of the input. [None]: it returns false. *)
Fixpoint scanBuf (n : nat) (m : memory) (s : scanner) : res (option slice * memory * scanner) :=
  match n with
  | O => NoFuel
  | S n' =>
    match tryToken m s with
    | Some (v, s1) => Ok (Some v, m, s1)
    | None =>
      match bErr s with
      | Some _ => Ok (None, m, mkScanner (bArr s) (bLen s) 0 0 (bErr s) (bRest s) (bSizes s))
      | None =>
        let '(m1, s1) := shift m s in
        match grow m1 s1 with
        | None => Ok (None, m1, mkScanner (bArr s1) (bLen s1) (bStart s1) (bEnd s1) (Some STooLong) (bRest s1) (bSizes s1))
        | Some (m2, s2) => let '(m3, s3) := readMore m2 s2 in scanBuf n' m3 s3
        end
      end
    end
  end.

Definition scanFuel (s : scanner) : nat := S (S (length (bRest s))).

(** lexer.NewLexer(scanner.Bytes()): the append of lexer.go:55; a new array gets [extra]
    further cells. *)
Definition lexBytes (extra : nat) (m : memory) (v : slice) : memory :=
  mkMem (fst (newLexerBuffer (mNext m) extra (mHeap m) v)) (S (mNext m)).

(** Whether a turn of the REPL gets to repl.go:71-75. *)
Definition parses (line : bytes) : bool :=
  let text := trimSpace line in
  negb (hasPrefix text (str ":help") || hasPrefix text (str ":pv") || hasPrefix text (str ":exit") || hasPrefix text (str ":tree")).

(** repl.go:28-89, the loop, reading through the scanner: [replTurn] of Main.v on what
    [scanner.Bytes()] shows, and the writes of the lexers it makes (one for the tokens, one
    for the parser). [fuel] bounds the number of lines. *)
Fixpoint replScan (X : Ext) (M : MainExt) (lex : bool) (extra fuel : nat) (e : session) (m : memory) (s : scanner) : bytes * outcome :=
  match fuel with
  | O => ([], OutOfFuel)
  | S fuel' =>
    match scanBuf (scanFuel s) m s with
    | Ok (None, _, _) => (prompt, Failure EScan)
    | Ok (Some v, m1, s1) =>
      let line := contents (mHeap m1) v in
      let m2 := if parses line && lex then lexBytes extra m1 v else m1 in
      let m3 := if parses line then lexBytes extra m2 v else m2 in
      let '(o, t) := replTurn X M lex e line in
      match t with
      | Ok None => (prompt ++ o, Success)
      | Ok (Some e1) => let '(o1, x) := replScan X M lex extra fuel' e1 m3 s1 in (prompt ++ o ++ o1, x)
      | t => (prompt ++ o, ended t)
      end
    | r => (prompt, ended r)
    end
  end.

(** repl.go:22-90, [Repl]. *)
Definition replBuffered (X : Ext) (M : MainExt) (lex : bool) (extra : nat) (stdin : bytes) (sizes : list nat) : bytes * outcome :=
  let '(o, e) := replScan X M lex extra (S (length stdin)) (mkSession newEnvironment false) newMemory (newScanner stdin sizes) in
  (greeting ++ o, e).
