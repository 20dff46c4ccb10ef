(** Model of src/thts_env_context.cpp (ThtsEnvContext). The two unordered_maps are association lists; values are
    shared pointers, of an arbitrary type. *)
From Coq Require Import List String.
From Verif Require Import Base EngineModel MapModel.
Import ListNotations.

Section Context.
Context {P : Type}.                         (* shared_ptr<void>, shared_ptr<const void> *)
(** include/thts_env_context.h:21-22. *)
Record ctx : Type := mkCtx { context : list (string * P); context_const : list (string * P) }.
Definition new_ctx : ctx := mkCtx [] [].
(** thts_env_context.cpp:11-13, 19-21. *)
Definition get_value_raw (c : ctx) (key : string) : outcome P := mat String.eqb (context c) key.
Definition get_value_raw_const (c : ctx) (key : string) : outcome P := mat String.eqb (context_const c) key.
(** thts_env_context.cpp:26-28, 33-35. *)
Definition put_value_raw (c : ctx) (key : string) (v : P) : ctx := mkCtx (mput String.eqb (context c) key v) (context_const c).
Definition put_value_raw_const (c : ctx) (key : string) (v : P) : ctx :=
  mkCtx (context c) (mput String.eqb (context_const c) key v).
(** thts_env_context.cpp:40-42, 47-49. *)
Definition erase (c : ctx) (key : string) : ctx := mkCtx (mdel String.eqb (context c) key) (context_const c).
Definition erase_const (c : ctx) (key : string) : ctx := mkCtx (context c) (mdel String.eqb (context_const c) key).

(** Calls of the member functions that change a context. *)
Inductive cop := Put (k : string) (v : P) | PutConst (k : string) (v : P) | Erase (k : string) | EraseConst (k : string).
Definition cdo (c : ctx) (o : cop) : ctx :=
  match o with
  | Put k v => put_value_raw c k v
  | PutConst k v => put_value_raw_const c k v
  | Erase k => erase c k
  | EraseConst k => erase_const c k
  end.
End Context.
Arguments ctx : clear implicits.
Arguments cop : clear implicits.
