(** Specification vocabulary for trees between runs. *)
From Coq Require Import List ZArith.
From Verif Require Import EngineModel AlgoModel.

(** The node as it was when it had [v] visits. *)
Definition with_visits {S A} (n : @dnode S A) (v : Z) : @dnode S A :=
  mkD (dstate n) (ddepth n) (dtime n) v (dheur n) (dkids n).

(** Algorithms whose backups look at the children once; algorithms whose backups look at them at most [r] times before
    the last look. *)
Definition one_look {S A} (G : @algo S A) : Prop := forall cx, seen_d G cx = nil /\ seen_c G cx = nil.
Definition looks_at_most {S A} (G : @algo S A) (r : nat) : Prop := exists left : CX G -> nat, (forall cx, left cx <= r)%nat /\
  (forall kids cx cx1, peek_d G kids cx = Some cx1 -> (left cx1 < left cx)%nat) /\
  (forall kids cx cx1, peek_c G kids cx = Some cx1 -> (left cx1 < left cx)%nat).
