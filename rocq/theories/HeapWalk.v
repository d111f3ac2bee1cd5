(** ast/astutils/walk.go on nodes in memory, for visitors that modify the tree while it is
    walked. Walk.v is the same function on trees that stay as they are. *)
From Verif Require Import Base Token Ast.

(** An [ast.Node] interface value: nil, or a type and a pointer, which may be nil. A nil field
    of pointer type (such as [Entry.TrailingComment]) is [VNil] too: Walk compares it with nil
    before it is made an interface value. *)
Inductive val : Type := VNil | VPtr (k : kind) (a : option nat).

(** Memory, as far as Walk reads it: the fields with parts (numbered in the order in which Walk
    reads them), the slice fields (backing array, offset, length) and the backing arrays. The
    rest, names and numbers, is in [hData]: the node with its parts taken out. *)
Record heap : Type := mkHeap {
  hField : nat -> nat -> val;
  hSlice : nat -> nat * nat * nat;
  hElem : nat -> nat -> val;
  hData : nat -> node
}.

(** Something Walk reads: field [i] of the node at [a], or element [i] of array [a]. *)
Inductive place : Type := PField (a i : nat) | PElem (a i : nat).
Definition get (h : heap) (p : place) : val := match p with PField a i => hField h a i | PElem a i => hElem h a i end.

(** The cases of the switch (walk.go:18-185). *)
Inductive shape : Type := Leaf | Fields (m : nat) | Elems | Unknown.
Definition shapeOf (k : kind) : shape :=
  match k with
  | KBooleanType | KBytesType | KBstrType | KComment | KFloatType | KFloatLiteral | KIdentifier
  | KIntegerType | KNegativeIntegerType | KIntegerLiteral | KNullType | KTextLiteral | KTstrType
  | KUintLiteral => Leaf                                      (* 25-32, 39-40, 77-81, 96-106, 113-114, 162-166, 176-177 *)
  | KArray | KCDDL | KGroup | KMap => Elems                   (* 20-23, 34-37, 83-86, 108-111 *)
  | KOptional | KUnwrap => Fields 1                           (* 116-119, 179-182 *)
  | KComparator | KRegexp | KSizeOp | KGroupChoice | KRange | KTypeChoice => Fields 2 (* 42-64, 88-94, 132-138, 168-174 *)
  | KEntry | KRule | KNMOccurrence | KTag => Fields 3         (* 66-75, 121-130, 140-160 *)
  | _ => Unknown                                              (* 183-184 *)
  end.

(** What the case for [x] reads, and whether nil is left out: fields are compared with nil,
    elements are not. [range] evaluates the slice once, here. [None]: a panic, by the default
    case or by reading a field of a nil pointer. *)
Definition places (h : heap) (x : val) : option (bool * list place) :=
  match x with
  | VNil => None
  | VPtr k a =>
    match shapeOf k, a with
    | Leaf, _ => Some (true, [])
    | Fields m, Some a => Some (true, map (PField a) (seq 0 m))
    | Elems, Some a => let '(b, o, n) := hSlice h a in Some (false, map (fun i => PElem b (o + i)) (seq 0 n))
    | _, _ => None
    end
  end.

(** walk.go:9-11: [Visit] may change memory and whatever the visitors share. *)
Definition hvisitor (V S : Type) : Type := V -> val -> heap * S -> res (heap * S * option V).

Section Walk.
Context {V S : Type} (visit : hvisitor V S).

(** The parts one after the other, each read from memory when its turn comes. *)
Fixpoint loop (walk : val -> heap * S -> res (heap * S)) (skip : bool) (ps : list place) (st : heap * S) : res (heap * S) :=
  match ps with
  | [] => Ok st
  | p :: ps =>
    match skip, get (fst st) p with
    | true, VNil => loop walk skip ps st
    | _, x => st <- walk x st;; loop walk skip ps st
    end
  end.

(** walk.go:13-188, [Walk]. *)
Fixpoint hwalk (fuel : nat) (v : V) (x : val) (st : heap * S) : res (heap * S) :=
  match fuel with
  | O => NoFuel
  | Datatypes.S f =>
    '(st, r) <- visit v x st;;
    match r with
    | None => Ok st                                           (* 14-16 *)
    | Some v' =>
      match places (fst st) x with
      | None => Panic
      | Some (skip, ps) => st <- loop (hwalk f v') skip ps st;; '(st, _) <- visit v' VNil st;; Ok st (* 187 *)
      end
    end
  end.
End Walk.
