(** What a configuration document means (config/config.go and encoding/json's rules for
    structs), stated over JSON documents. *)
From Coq Require Import String.
From Verif Require Import Base Cli Json JsonSpec.
Open Scope string_scope.
Open Scope list_scope.
Open Scope Z_scope.

(** The same name but for the case of letters; the long s and the Kelvin sign count as
    letters of ASCII. The first is a lowercase name. *)
Inductive Same : bytes -> bytes -> Prop :=
| same_nil : Same [] []
| same_byte c n k : Same n k -> Same (c :: n) (c :: k)
| same_upper c n k : 97 <= c <= 122 -> Same n k -> Same (c :: n) (c - 32 :: k)
| same_long n k : Same n k -> Same (115 :: n) (197 :: 191 :: k)
| same_kelvin n k : Same n k -> Same (107 :: n) (226 :: 132 :: 170 :: k).

(** The values of the members of that name, in order. *)
Inductive Members (name : string) : list (bytes * json) -> list json -> Prop :=
| mb_nil : Members name [] []
| mb_in k v m vs : Same (str name) k -> Members name m vs -> Members name ((k, v) :: m) (v :: vs)
| mb_out k v m vs : ~ Same (str name) k -> Members name m vs -> Members name ((k, v) :: m) vs.

Definition nullOrText (v : json) : Prop := v = JNull \/ exists s, v = JStr s.

(** A string field: the last string counts, null does not change it. *)
Definition TextOf (vs : list json) (s : bytes) : Prop :=
  Forall nullOrText vs /\
  ((exists a b, vs = a ++ JStr s :: b /\ Forall (eq JNull) b) \/ (Forall (eq JNull) vs /\ s = [])).
Definition Text (name : string) (m : list (bytes * json)) (s : bytes) : Prop := exists vs, Members name m vs /\ TextOf vs s.

Inductive BuildOf : json -> option build -> Prop :=
| bd_null : BuildOf JNull None
| bd_obj m b : Text "package" m (bPackage b) -> Text "src" m (bSource b) -> Text "output" m (bOut b) -> BuildOf (JObj m) (Some b).

(** The builds: the last array counts, null empties the list. *)
Inductive BuildsOf : list json -> list (option build) -> Prop :=
| bs_none : BuildsOf [] []
| bs_null vs bs : BuildsOf vs bs -> BuildsOf (vs ++ [JNull]) []
| bs_arr vs bs l bs' : BuildsOf vs bs -> Forall2 BuildOf l bs' -> BuildsOf (vs ++ [JArr l]) bs'.

(** An array where there are elements already, which encoding/json decodes into. *)
Definition Refilled (vs : list json) : Prop :=
  exists a l b l' c, vs = a ++ JArr l :: b ++ JArr l' :: c /\ l <> [] /\ ~ In JNull b.

(** Plugins and options are not used, but have to fit their types. *)
Definition OneText (name : string) (v : json) : Prop := v = JNull \/ exists m vs, v = JObj m /\ Members name m vs /\ Forall nullOrText vs.
Definition PluginOk (v : json) : Prop :=
  v = JNull \/ exists m ns rs ls, v = JObj m /\ Members "name" m ns /\ Forall nullOrText ns /\
    Members "remote" m rs /\ Forall (OneText "url") rs /\ Members "local" m ls /\ Forall (OneText "path") ls.
Definition PluginsOk (v : json) : Prop := v = JNull \/ exists l, v = JArr l /\ Forall PluginOk l.

Inductive InRange (J : JsonExt) : json -> Prop :=
| ir_null : InRange J JNull
| ir_bool b : InRange J (JBool b)
| ir_str s : InRange J (JStr s)
| ir_num t : jInRange J t = true -> InRange J (JNum t)
| ir_arr l : Forall (InRange J) l -> InRange J (JArr l)
| ir_obj m : Forall (fun a => InRange J (snd a)) m -> InRange J (JObj m).
Definition OptionsOk (J : JsonExt) (v : json) : Prop := v = JNull \/ exists m, v = JObj m /\ InRange J v.

(** The configuration of a document. *)
Inductive ConfigOf (J : JsonExt) : json -> config -> Prop :=
| cf_null : ConfigOf J JNull (mkConfig [] [])
| cf_obj m c bs ps os : Text "version" m (cfVersion c) ->
    Members "builds" m bs -> ~ Refilled bs -> BuildsOf bs (cfBuilds c) ->
    Members "plugins" m ps -> Forall PluginsOk ps -> Members "options" m os -> Forall (OptionsOk J) os -> ConfigOf J (JObj m) c
| cf_refilled m bs c : Members "builds" m bs -> Refilled bs -> jSecond J (JObj m) = Some c -> ConfigOf J (JObj m) c.
