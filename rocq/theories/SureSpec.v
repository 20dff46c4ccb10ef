(** Specification vocabulary: searches that went on until every action was tried again everywhere. *)
From Coq Require Import List ZArith Bool Reals.
From Verif Require Import Base NumOps HelperModel EngineModel EngineSpec AlgoModel.
Import ListNotations.

Section Sure.
Context {S A : Type}.
Variable seqb : S -> S -> bool.
Variable aeqb : A -> A -> bool.
Variable C : @econf S A.
Context {G : @algo S A}.

(** The search went on from [s] to [s'], where again no trial is under way, and every action known at a decision node in
    [s] was tried there at least once more. *)
Definition round (s s' : ast G) : Prop :=
  (exists ls, arun seqb aeqb C G ls s = Some s') /\ quiet (base s') /\
  forall c x x', nth_error (ch (mem (base s))) c = Some x -> nth_error (ch (mem (base s'))) c = Some x' -> (cvisits x < cvisits x')%Z.

(** [k] rounds, one after the other. *)
Inductive rounds : nat -> ast G -> ast G -> Prop :=
| rounds_none : forall s, rounds 0 s s
| rounds_more : forall k s s1 s2, rounds k s s1 -> round s1 s2 -> rounds (Datatypes.S k) s s2.
End Sure.
