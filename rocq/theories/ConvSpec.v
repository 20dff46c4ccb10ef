(** Specification vocabulary: what UCT and PUCT searches converge to. *)
From Coq Require Import List ZArith Bool Reals.
From Verif Require Import Base NumOps EngineModel EngineSpec AlgoModel UctModel UctSpec SoftSpec WorldSpec.
Import ListNotations.
Open Scope R_scope.

(** An exploration term that dies out if the child has its share of the visits of the node. *)
Definition sublinear (term : Z -> Z -> R) : Prop := forall delta eta, 0 < delta -> 0 < eta ->
  exists m0, forall m c, (m0 <= m)%Z -> eta * IZR m <= IZR c -> term m c <= delta.

Section Spec.
Context {S A : Type}.
Variable C : @econf S A.
Variable U : @uconf S A.
Notation event := (@event S A).

(** A value seen by whoever moves at time [t]: the opponent moves at odd times of two-player games. *)
Definition umover (t : Z) (v : R) : R := if utwo U && Z.odd t then - v else v.
(** What taking action [a] in state [s] at time [t] is worth in the mean, if [V h] are the values of states with [h]
    decisions left. *)
Definition uworth (V : nat -> S -> Z -> R) (h : nat) (s : S) (t : Z) (a : A) : R :=
  expected (fun o => rwd C s a o + V h o (t + 1)%Z) (udistr U s a).
(** [V h s t] is the value of state [s] at time [t] with [h] decisions left under best play: sinks are worth 0, states where no
    decision is left their heuristic value, other states what the best action of whoever moves is worth. *)
Record usolves (V : nat -> S -> Z -> R) : Prop := mkUsolves {
  us_sink : forall h s t, is_sink C s = true -> V h s t = 0;
  us_end : forall s t, is_sink C s = false -> V 0%nat s t = initial C s;
  us_step : forall h s t, is_sink C s = false ->
    greatest (acts C s) (fun a => umover t (uworth V h s t a)) (umover t (V (Datatypes.S h) s t))
}.
(** Action [a] is as good as any other in state [s] at time [t] with [h] decisions left. *)
Definition best_action (V : nat -> S -> Z -> R) (h : nat) (s : S) (t : Z) (a : A) : Prop :=
  In a (acts C s) /\ uworth V (h - 1) s t a = V h s t.

(** The outcomes sampled at chance node [c], newest first. *)
Definition sampled (c : nat) (tr : list (nat * event)) : list S :=
  flat_map (fun p => match snd p with EVisitC c' o _ _ => if Nat.eqb c' c then [o] else [] | _ => [] end) tr.
(** Sampling is fair: at every moment of the search and for every chance node with at least [K delta] samples, the sampled mean
    of any function between -1 and 1 differs from its mean under the outcome distribution by at most [delta]. ([K] is how
    fast the law of large numbers works on the draws of this run; certain outcomes are fair with [K = 0].) *)
Definition fair (K : R -> Z) (s : @est S A) : Prop := forall c x later tr, nth_error (ch (mem s)) c = Some x ->
  etrace s = later ++ tr -> forall delta g, 0 < delta -> (forall o, Rabs (g o) <= 1) ->
  (K delta <= Z.of_nat (length (sampled c tr)))%Z ->
  Rabs (rsum_of g (sampled c tr) - INR (length (sampled c tr)) * expected g (udistr U (cstate x) (cact x)))
    <= delta * INR (length (sampled c tr)).

(** Actions have certain outcomes. *)
Definition sure_outcomes : Prop := forall s a, is_sink C s = false -> In a (acts C s) -> exists o p, udistr U s a = [(o, p)].
End Spec.
