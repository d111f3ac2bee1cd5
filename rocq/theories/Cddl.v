(** Which data a CDDL document describes: RFC 8610, for the part of the language of Doc.v whose
    meaning needs no maps, tags, floats, regular expressions or sockets. This is a specification
    of its own; nothing of the parser or the generator is used. *)
From Coq Require Import String.
From Verif Require Import Base Token Doc JsonSpec.
Open Scope string_scope.
Open Scope list_scope.
Open Scope Z_scope.

(** ** CBOR data items (RFC 8949, section 2) *)

Inductive cbor : Type :=
| CInt (z : Z)                       (* major types 0 and 1 *)
| CBytes (s : bytes)
| CText (s : bytes)                  (* its UTF-8 bytes *)
| CArray (l : list cbor)
| CMap (l : list (cbor * cbor))
| CTag (n : Z) (v : cbor)
| CBool (b : bool)
| CNull
| CFloat (bits : Z).

Definition isByte (c : Z) : Prop := 0 <= c < 256.

(** ** Matching *)

(** [MType rs e v]: the item [v] is of the type [e], where [rs] are the rules.
    [MSeq rs e l]: the items [l] of an array are what the group entry [e] stands for.
    The names of members matter in maps only (RFC 8610, section 2.1). A name is what one of the
    rules for it says; a rule may be a type or a group (section 2.2 and appendix B). *)
Inductive MType (rs : list rule) : expr -> cbor -> Prop :=
| mt_int z : - 2 ^ 64 <= z < 2 ^ 64 -> MType rs (XAtom (AType INT)) (CInt z)
| mt_uint z : 0 <= z < 2 ^ 64 -> MType rs (XAtom (AType UINT)) (CInt z)
| mt_nint z : - 2 ^ 64 <= z < 0 -> MType rs (XAtom (AType NINT)) (CInt z)
| mt_bool b : MType rs (XAtom (AType BOOL)) (CBool b)
| mt_text t s : In t [TSTR; TEXT] -> Utf8Text s -> MType rs (XAtom (AType t)) (CText s)
| mt_bytes t s : In t [BSTR; BYTES] -> Forall isByte s -> MType rs (XAtom (AType t)) (CBytes s)
| mt_null t : In t [NULL; NIL] -> MType rs (XAtom (AType t)) CNull
| mt_lit_bool b : MType rs (XAtom (ABool b)) (CBool b)
| mt_lit_int w v : MType rs (XAtom (AInt w v)) (CInt v)
| mt_lit_text w : MType rs (XAtom (AText w)) (CText w)
| mt_name w r v : In r rs -> rName r = w -> MType rs (rBody r) v -> MType rs (XAtom (AName w)) v
| mt_paren lead e v : MType rs e v -> MType rs (XBracket BGroup (ECons lead e false ENil)) v
| mt_array es l : MElems rs es l -> MType rs (XBracket BArray es) (CArray l)
| mt_left l g r v : MType rs l v -> MType rs (XInfix l (OChoice g) r) v
| mt_right l g r v : MType rs r v -> MType rs (XInfix l (OChoice g) r) v
| mt_size_uint w n z : 0 <= z < 256 ^ n -> MType rs (XInfix (XAtom (AType UINT)) OSize (XAtom (AInt w n))) (CInt z)
| mt_size_text t w n s : In t [TSTR; TEXT] -> Utf8Text s -> zlen s = n ->
    MType rs (XInfix (XAtom (AType t)) OSize (XAtom (AInt w n))) (CText s)
| mt_size_bytes t w n s : In t [BSTR; BYTES] -> Forall isByte s -> zlen s = n ->
    MType rs (XInfix (XAtom (AType t)) OSize (XAtom (AInt w n))) (CBytes s)
| mt_range w a (excl : bool) w' b z : a <= z <= b - (if excl then 1 else 0) ->
    MType rs (XInfix (XAtom (AInt w a)) (ORange excl) (XAtom (AInt w' b))) (CInt z)
with MSeq (rs : list rule) : expr -> list cbor -> Prop :=
| ms_type e v : MType rs e v -> MSeq rs e [v]
| ms_member k arrow e tc v : MType rs e v -> MSeq rs (XMember k arrow e tc) [v]
| ms_name w r l : In r rs -> rName r = w -> MSeq rs (rBody r) l -> MSeq rs (XAtom (AName w)) l
| ms_group es l : MElems rs es l -> MSeq rs (XBracket BGroup es) l
| ms_none e : MSeq rs (XPrefix PreOpt e) []
| ms_one e l : MSeq rs e l -> MSeq rs (XPrefix PreOpt e) l
| ms_star e n l : MTimes rs e n l -> MSeq rs (XPrefix PreStar e) l
| ms_plus e n l : MTimes rs e (S n) l -> MSeq rs (XPrefix PrePlus e) l
| ms_left l g r v : MSeq rs l v -> MSeq rs (XInfix l (OChoice g) r) v
| ms_right l g r v : MSeq rs r v -> MSeq rs (XInfix l (OChoice g) r) v
with MElems (rs : list rule) : elems -> list cbor -> Prop :=
| me_nil : MElems rs ENil []
| me_cons lead e comma r l1 l2 : MSeq rs e l1 -> MElems rs r l2 -> MElems rs (ECons lead e comma r) (l1 ++ l2)
with MTimes (rs : list rule) : expr -> nat -> list cbor -> Prop :=
| mn_none e : MTimes rs e 0 []
| mn_more e n l1 l2 : MSeq rs e l1 -> MTimes rs e n l2 -> MTimes rs e (S n) (l1 ++ l2).

Scheme MType_ind2 := Induction for MType Sort Prop
  with MSeq_ind2 := Induction for MSeq Sort Prop
  with MElems_ind2 := Induction for MElems Sort Prop
  with MTimes_ind2 := Induction for MTimes Sort Prop.
Combined Scheme match_ind from MType_ind2, MSeq_ind2, MElems_ind2, MTimes_ind2.

Definition rulesIn (d : doc) : list rule := map snd (dRules d).

(** [Describes d w v]: the rule [w] of the document describes the item [v]. *)
Definition Describes (d : doc) (w : bytes) (v : cbor) : Prop := MType (rulesIn d) (XAtom (AName w)) v.
