(** Specification vocabulary: searches whose trials do not overlap. *)
From Coq Require Import List ZArith Bool Reals.
From Verif Require Import Base NumOps HelperModel EngineModel EngineSpec AlgoModel.
Import ListNotations.

Section Repro.
Context {S A : Type}.
Variable seqb : S -> S -> bool.
Variable aeqb : A -> A -> bool.
Variable C : @econf S A.
Context {G : @algo S A}.

(** In the schedule [ls] from [s] on, no worker starts a trial while another one is in a trial. *)
Fixpoint one_at_a_time (ls : list alabel) (s : ast G) : Prop :=
  match ls with
  | [] => True
  | l :: r => match l with AStart _ => quiet (base s) | ARun _ => True end /\
              match astep seqb aeqb C G l s with Some s1 => one_at_a_time r s1 | None => True end
  end.

(** The same tree with the same members in every node, the same state of the random generator, and the same failure if
    there was one. *)
Definition same_outcome (s s' : ast G) : Prop :=
  mem (base s) = mem (base s') /\ xds s = xds s' /\ xcs s = xcs s' /\ rg s = rg s' /\ afail s = afail s'.
(** What happened, without the worker who did it. *)
Definition story (s : ast G) : list (@event S A) := map snd (etrace (base s)).
End Repro.
