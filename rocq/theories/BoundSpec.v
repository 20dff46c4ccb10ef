(** Specification vocabulary: how large the counters of a search can get. *)
From Coq Require Import List ZArith Bool Reals.
From Verif Require Import Base NumOps EngineModel.
Import ListNotations.
Open Scope Z_scope.

(** Values of the C++ type int. *)
Definition fits (z : Z) : Prop := - 2 ^ 31 <= z < 2 ^ 31.

Section Bound.
Context {S A : Type}.
Variable C : @econf S A.
(** Visits of all decision nodes of depth [k], and of all chance nodes of depth [k]. *)
Definition visits_at (k : Z) (m : @store S A) : Z := sumZ (fun n => if ddepth n =? k then dvisits n - init_visits C else 0) (dh m).
Definition visits_at_c (k : Z) (m : @store S A) : Z := sumZ (fun x => if cdepth x =? k then cvisits x else 0) (ch m).
End Bound.
