(** Specification vocabulary: no action of a UCT or PUCT search starves. *)
From Coq Require Import List ZArith Bool Reals.
From Verif Require Import Base NumOps EngineModel EngineSpec AlgoModel UctModel UctSpec.
Import ListNotations.

(** An exploration term that never dies out: it falls with the visits of the child, grows with those of the
    node, becomes arbitrarily large as the node is visited while the child is not, and becomes arbitrarily small
    compared with that of a fixed number of child visits. *)
Definition exploring (term : Z -> Z -> R) : Prop :=
  (forall n c d, (c <= d)%Z -> (term n d <= term n c)%R) /\
  (forall n m c, (n <= m)%Z -> (term n c <= term m c)%R) /\
  (forall k x, exists n0, forall n, (n0 <= n)%Z -> (x <= term n k)%R) /\
  (forall k q, (0 < q)%R -> exists c0, forall n c, (c0 <= c)%Z -> (term n c <= q * term n k)%R).

Section Spec.
Context {S A : Type}.
Variable aeqb : A -> A -> bool.
Variable C : @econf S A.
Variable U : @uconf S A.

(** How often action [a] was selected at node [d]. *)
Definition times (d : nat) (a : A) (tr : list (nat * @event S A)) : Z := countb (aeqb a) (selected d tr).

(** Exploration is switched on: the bias is automatic or positive, and the priors (if any) are positive. *)
Definition explores : Prop :=
  (ubias U = -1 \/ 0 < ubias U)%R /\
  (forall p, uprior U = Some p -> forall s q, In q (p s) -> (0 < snd q)%R) /\ exploring (uterm U).

(** Every action of node [d] has a child that was visited at least [k] times. *)
Definition all_tried (k : Z) (m : @store S A) (d : nat) : Prop :=
  exists node, nth_error (dh m) d = Some node /\
    forall a, In a (acts C (dstate node)) ->
      exists c x, lookup aeqb a (dkids node) = Some c /\ nth_error (ch m) c = Some x /\ (k <= cvisits x)%Z.
End Spec.
