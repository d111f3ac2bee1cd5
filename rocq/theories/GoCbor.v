(** The values of the types of a generated file (Codegen.v, [gdecl]) and how they are written
    as CBOR. The field tags the generator writes, [toarray] and [omitempty], are those of
    github.com/fxamacker/cbor; this file states what that package does, with its default
    options, to the types the generator makes, except that it leaves out structs without
    [toarray], which become maps. It is a specification; nothing of the generator is used. *)
From Coq Require Import String.
From Verif Require Import Base Codegen Cddl.
Open Scope string_scope.
Open Scope list_scope.
Open Scope Z_scope.

(** ** Values *)

Inductive gval : Type :=
| VInt (z : Z)
| VUint (z : Z)
| VBool (b : bool)
| VString (s : bytes)
| VSlice (l : option (list gval))            (* [None]: the nil slice *)
| VStruct (l : list gval).                   (* one value per field *)

(** [HasType ds e v]: [v] is a value of the type [e], where [ds] are the declarations; on a
    64-bit platform. A field has no name, when it is embedded, or one. *)
Inductive HasType (ds : list gdecl) : gexpr -> gval -> Prop :=
| ht_int z : - 2 ^ 63 <= z < 2 ^ 63 -> HasType ds (GIdent (str "int")) (VInt z)
| ht_uint z : 0 <= z < 2 ^ 64 -> HasType ds (GIdent (str "uint")) (VUint z)
| ht_byte z : isByte z -> HasType ds (GIdent (str "byte")) (VUint z)
| ht_bool b : HasType ds (GIdent (str "bool")) (VBool b)
| ht_string s : Forall isByte s -> HasType ds (GIdent (str "string")) (VString s)
| ht_name doc n e v : In (GType doc n e) ds -> HasType ds e v -> HasType ds (GIdent n) v
| ht_nil e : HasType ds (GSlice e) (VSlice None)
| ht_slice e l : HasTypes ds e l -> HasType ds (GSlice e) (VSlice (Some l))
| ht_struct fs vs : HaveTypes ds fs vs -> HasType ds (GStruct fs) (VStruct vs)
with HasTypes (ds : list gdecl) : gexpr -> list gval -> Prop :=
| hs_nil e : HasTypes ds e []
| hs_cons e v l : HasType ds e v -> HasTypes ds e l -> HasTypes ds e (v :: l)
with HaveTypes (ds : list gdecl) : list gfield -> list gval -> Prop :=
| hv_nil : HaveTypes ds [] []
| hv_cons ns e tag fs v vs : (length ns <= 1)%nat -> HasType ds e v -> HaveTypes ds fs vs ->
    HaveTypes ds ((ns, e, tag) :: fs) (v :: vs).

Scheme HasType_ind2 := Induction for HasType Sort Prop
  with HasTypes_ind2 := Induction for HasTypes Sort Prop
  with HaveTypes_ind2 := Induction for HaveTypes Sort Prop.
Combined Scheme hasType_ind from HasType_ind2, HasTypes_ind2, HaveTypes_ind2.

(** ** The fields of a struct *)

(** The types whose underlying type is a struct. *)
Inductive IsStruct (ds : list gdecl) : gexpr -> list gfield -> Prop :=
| is_struct fs : IsStruct ds (GStruct fs) fs
| is_named doc n e fs : In (GType doc n e) ds -> IsStruct ds e fs -> IsStruct ds (GIdent n) fs.

(** A field with its depth: that of a field of an embedded struct is one more. *)
Record leaf : Type := mkLeaf { lName : bytes; lDepth : nat; lType : gexpr; lVal : gval }.

(** [Leaves ds E d fs vs l]: the fields [fs] with the values [vs] of a struct at depth [d] are
    [l], embedded structs being replaced by their fields. [E] says which names are exported;
    other fields are passed over. *)
Inductive Leaves (ds : list gdecl) (E : bytes -> Prop) : nat -> list gfield -> list gval -> list leaf -> Prop :=
| lv_nil d : Leaves ds E d [] [] []
| lv_field d n e tag fs v vs l : E n -> Leaves ds E d fs vs l ->
    Leaves ds E d (([n], e, tag) :: fs) (v :: vs) (mkLeaf n d e v :: l)
| lv_private d n e tag fs v vs l : ~ E n -> Leaves ds E d fs vs l ->
    Leaves ds E d (([n], e, tag) :: fs) (v :: vs) l
| lv_embedded d n tag gs us fs vs l l' : IsStruct ds (GIdent n) gs -> Leaves ds E (S d) gs us l' ->
    Leaves ds E d fs vs l -> Leaves ds E d (([], GIdent n, tag) :: fs) (VStruct us :: vs) (l' ++ l)
| lv_other d n tag fs v vs l : (forall gs, ~ IsStruct ds (GIdent n) gs) -> E n -> Leaves ds E d fs vs l ->
    Leaves ds E d (([], GIdent n, tag) :: fs) (v :: vs) (mkLeaf n d (GIdent n) v :: l)
| lv_other_private d n tag fs v vs l : (forall gs, ~ IsStruct ds (GIdent n) gs) -> ~ E n -> Leaves ds E d fs vs l ->
    Leaves ds E d (([], GIdent n, tag) :: fs) (v :: vs) l.

(** A field is visible if it is the only one of its name at its depth or above. *)
Definition rivals (l : list leaf) (x : leaf) : list leaf :=
  filter (fun y => beq (lName y) (lName x) && (lDepth y <=? lDepth x)%nat) l.
Definition visible (l : list leaf) : list leaf := filter (fun x => (length (rivals l x) =? 1)%nat) l.

(** ** Encoding *)

Definition TOARRAY_TAG : bytes := str "`cbor:"",toarray""`".

(** A struct is written as an array if its field "_" asks for that. *)
Definition toArray (fs : list gfield) : Prop := exists e, In ([str "_"], e, Some TOARRAY_TAG) fs.

(** [Enc ds E e v c]: the value [v] of the type [e] is written as [c]. *)
Inductive Enc (ds : list gdecl) (E : bytes -> Prop) : gexpr -> gval -> cbor -> Prop :=
| en_int z : Enc ds E (GIdent (str "int")) (VInt z) (CInt z)
| en_uint z : Enc ds E (GIdent (str "uint")) (VUint z) (CInt z)
| en_byte z : Enc ds E (GIdent (str "byte")) (VUint z) (CInt z)
| en_bool b : Enc ds E (GIdent (str "bool")) (VBool b) (CBool b)
| en_string s : Enc ds E (GIdent (str "string")) (VString s) (CText s)
| en_name doc n e v c : In (GType doc n e) ds -> Enc ds E e v c -> Enc ds E (GIdent n) v c
| en_nil e : Enc ds E (GSlice e) (VSlice None) CNull
| en_bytes s : Enc ds E (GSlice (GIdent (str "byte"))) (VSlice (Some (map VUint s))) (CBytes s)
| en_slice e l cs : e <> GIdent (str "byte") -> EncAll ds E (map (mkLeaf [] 0 e) l) cs ->
    Enc ds E (GSlice e) (VSlice (Some l)) (CArray cs)
| en_struct fs vs l cs : toArray fs -> Leaves ds E 0 fs vs l -> EncAll ds E (visible l) cs ->
    Enc ds E (GStruct fs) (VStruct vs) (CArray cs)
with EncAll (ds : list gdecl) (E : bytes -> Prop) : list leaf -> list cbor -> Prop :=
| ea_nil : EncAll ds E [] []
| ea_cons x l c cs : Enc ds E (lType x) (lVal x) c -> EncAll ds E l cs -> EncAll ds E (x :: l) (c :: cs).

Scheme Enc_ind2 := Induction for Enc Sort Prop
  with EncAll_ind2 := Induction for EncAll Sort Prop.
Combined Scheme enc_ind from Enc_ind2, EncAll_ind2.

(** ** Values without nil slices and with strings of UTF-8 only *)

Inductive Proper : gval -> Prop :=
| pr_int z : Proper (VInt z)
| pr_uint z : Proper (VUint z)
| pr_bool b : Proper (VBool b)
| pr_string s : JsonSpec.Utf8Text s -> Proper (VString s)
| pr_slice l : ProperAll l -> Proper (VSlice (Some l))
| pr_struct l : ProperAll l -> Proper (VStruct l)
with ProperAll : list gval -> Prop :=
| pa_nil : ProperAll []
| pa_cons v l : Proper v -> ProperAll l -> ProperAll (v :: l).
