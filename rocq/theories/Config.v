(** config/config.go:21-77: plugins and [Config.Valid]. *)
From Coq Require Import String.
From Verif Require Import Base Cli.
Open Scope string_scope.
Open Scope list_scope.
Open Scope Z_scope.

(** config.go:19-43, [PluginRemote], [PluginLocal] and [Plugin]. *)
Record plugin : Type := mkPlugin { plName : bytes; plURL : bytes; plPath : bytes }.

(** The errors of config.go:27-37: what os.Stat returned, or a path that is no directory
    (the text of the latter is config.go:34). *)
Inductive pluginErr : Type := PStat (path : bytes) | PNotDir (text : bytes).

(** config.go:27-37, [PluginLocal.Valid]; [None] is nil. *)
Definition localValid (O : OsExt) (f : fs) (cwd : path) (p : bytes) : option pluginErr :=
  match stat O f cwd p with
  | SDir => None
  | SFile => Some (PNotDir (str "plugin path " ++ p ++ str " not found"))
  | SNotExist | SErr => Some (PStat p)
  end.

(** config.go:45-48, [Plugin.Valid]; the receiver is a pointer. *)
Definition pluginValid (O : OsExt) (f : fs) (cwd : path) (p : option plugin) : res (option pluginErr) :=
  match p with
  | None => Panic
  | Some p => Ok (localValid O f cwd (plPath p))
  end.

(** config.go:68-76, [Config.Valid] on the plugins of a configuration. *)
Fixpoint configValid (O : OsExt) (f : fs) (cwd : path) (l : list (option plugin)) : res (option pluginErr) :=
  match l with
  | [] => Ok None
  | p :: r => e <- pluginValid O f cwd p ;; match e with Some e => Ok (Some e) | None => configValid O f cwd r end
  end.
