(** How CBOR data are read into variables of generated types: cbor.Unmarshal of
    github.com/fxamacker/cbor with its default options, for types the generator makes and data
    without tags. As in GoCbor.v this is a specification of a package the generated files are
    written for; nothing of the generator is used. *)
From Coq Require Import String.
From Verif Require Import Base Codegen Cddl GoCbor.
Open Scope string_scope.
Open Scope list_scope.
Open Scope Z_scope.

(** ** Zero values *)

Inductive Zero (ds : list gdecl) : gexpr -> gval -> Prop :=
| ze_int : Zero ds (GIdent (str "int")) (VInt 0)
| ze_uint : Zero ds (GIdent (str "uint")) (VUint 0)
| ze_byte : Zero ds (GIdent (str "byte")) (VUint 0)
| ze_bool : Zero ds (GIdent (str "bool")) (VBool false)
| ze_string : Zero ds (GIdent (str "string")) (VString [])
| ze_name doc n e v : In (GType doc n e) ds -> Zero ds e v -> Zero ds (GIdent n) v
| ze_slice e : Zero ds (GSlice e) (VSlice None)
| ze_struct fs vs : Zeros ds fs vs -> Zero ds (GStruct fs) (VStruct vs)
with Zeros (ds : list gdecl) : list gfield -> list gval -> Prop :=
| zs_nil : Zeros ds [] []
| zs_cons ns e tag fs v vs : (length ns <= 1)%nat -> Zero ds e v -> Zeros ds fs vs -> Zeros ds ((ns, e, tag) :: fs) (v :: vs).

Scheme Zero_ind2 := Induction for Zero Sort Prop
  with Zeros_ind2 := Induction for Zeros Sort Prop.
Combined Scheme zero_ind from Zero_ind2, Zeros_ind2.

(** [Rest ds E all d fs vs]: those fields [fs] of a struct at depth [d] that are not visible have
    their zero values; [all] are the fields of the whole struct. *)
Inductive Rest (ds : list gdecl) (E : bytes -> Prop) (all : list leaf) : nat -> list gfield -> list gval -> Prop :=
| re_nil d : Rest ds E all d [] []
| re_field d n e tag fs v vs : E n -> In (mkLeaf n d e v) (visible all) \/ Zero ds e v -> Rest ds E all d fs vs ->
    Rest ds E all d (([n], e, tag) :: fs) (v :: vs)
| re_private d n e tag fs v vs : ~ E n -> Zero ds e v -> Rest ds E all d fs vs -> Rest ds E all d (([n], e, tag) :: fs) (v :: vs)
| re_embedded d n tag gs us fs vs : IsStruct ds (GIdent n) gs -> Rest ds E all (S d) gs us -> Rest ds E all d fs vs ->
    Rest ds E all d (([], GIdent n, tag) :: fs) (VStruct us :: vs)
| re_other d n tag fs v vs : (forall gs, ~ IsStruct ds (GIdent n) gs) -> E n -> In (mkLeaf n d (GIdent n) v) (visible all) \/ Zero ds (GIdent n) v ->
    Rest ds E all d fs vs -> Rest ds E all d (([], GIdent n, tag) :: fs) (v :: vs)
| re_other_private d n tag fs v vs : (forall gs, ~ IsStruct ds (GIdent n) gs) -> ~ E n -> Zero ds (GIdent n) v -> Rest ds E all d fs vs ->
    Rest ds E all d (([], GIdent n, tag) :: fs) (v :: vs).

(** ** Reading *)

(** [Dec ds E e c v]: the item [c] is read into a variable of the type [e], and this is [v] then.
    If there is no such [v] then reading fails. Null leaves the variable as it is. An array of
    numbers is read into a slice of bytes, too. A struct is read from an array with as many
    elements as it has visible fields. *)
Inductive Dec (ds : list gdecl) (E : bytes -> Prop) : gexpr -> cbor -> gval -> Prop :=
| de_int z : - 2 ^ 63 <= z < 2 ^ 63 -> Dec ds E (GIdent (str "int")) (CInt z) (VInt z)
| de_uint z : 0 <= z < 2 ^ 64 -> Dec ds E (GIdent (str "uint")) (CInt z) (VUint z)
| de_byte z : isByte z -> Dec ds E (GIdent (str "byte")) (CInt z) (VUint z)
| de_bool b : Dec ds E (GIdent (str "bool")) (CBool b) (VBool b)
| de_string s : JsonSpec.Utf8Text s -> Dec ds E (GIdent (str "string")) (CText s) (VString s)
| de_name doc n e c v : In (GType doc n e) ds -> Dec ds E e c v -> Dec ds E (GIdent n) c v
| de_null e v : Zero ds e v -> Dec ds E e CNull v
| de_bytes s : Forall isByte s -> Dec ds E (GSlice (GIdent (str "byte"))) (CBytes s) (VSlice (Some (map VUint s)))
| de_slice e l cs : DecAll ds E (map (mkLeaf [] 0 e) l) cs -> Dec ds E (GSlice e) (CArray cs) (VSlice (Some l))
| de_struct fs vs l cs : toArray fs -> Leaves ds E 0 fs vs l -> DecAll ds E (visible l) cs -> Rest ds E l 0 fs vs ->
    Dec ds E (GStruct fs) (CArray cs) (VStruct vs)
with DecAll (ds : list gdecl) (E : bytes -> Prop) : list leaf -> list cbor -> Prop :=
| da_nil : DecAll ds E [] []
| da_cons x l c cs : Dec ds E (lType x) c (lVal x) -> DecAll ds E l cs -> DecAll ds E (x :: l) (c :: cs).

Scheme Dec_ind2 := Induction for Dec Sort Prop
  with DecAll_ind2 := Induction for DecAll Sort Prop.
Combined Scheme dec_ind from Dec_ind2, DecAll_ind2.

(** ** Data without null and tags *)

Inductive Strict : cbor -> Prop :=
| st_int z : Strict (CInt z)
| st_bytes s : Strict (CBytes s)
| st_text s : Strict (CText s)
| st_array l : StrictAll l -> Strict (CArray l)
| st_map l : Strict (CMap l)
| st_bool b : Strict (CBool b)
| st_float b : Strict (CFloat b)
with StrictAll : list cbor -> Prop :=
| sa_nil : StrictAll []
| sa_cons x l : Strict x -> StrictAll l -> StrictAll (x :: l).

(** [Loose x y]: [x] is [y], or has arrays of numbers in place of byte strings. *)
Inductive Loose : cbor -> cbor -> Prop :=
| lo_same x : Loose x x
| lo_bytes s : Loose (CArray (map CInt s)) (CBytes s)
| lo_array l l' : LooseAll l l' -> Loose (CArray l) (CArray l')
with LooseAll : list cbor -> list cbor -> Prop :=
| la_nil : LooseAll [] []
| la_cons x y l l' : Loose x y -> LooseAll l l' -> LooseAll (x :: l) (y :: l').
