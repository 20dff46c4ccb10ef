(** Specification for C104: environments that a search has to work in, and base arguments that make sense. *)
From Coq Require Import List ZArith Bool Reals Permutation.
From Verif Require Import HelperSpec DefaultModel.
Import ListNotations.
Open Scope R_scope.

Section Spec.
Context {S A : Type}.

(** An environment: states that are not sinks have actions (at most [N], none listed twice), the outcomes of an
    action have positive probabilities that sum to one, rewards are at most [B] in size. *)
Record works_in (E : @environment S A) (N B : R) : Prop := mkWorks {
  w_acts : forall s, v_sink E s = false -> v_acts E s <> [];
  w_nodup : forall s, NoDup (v_acts E s);
  w_few : forall s, INR (length (v_acts E s)) <= N;
  w_distr : forall s a, v_sink E s = false -> In a (v_acts E s) ->
    positive_weights (v_distr E s a) /\ total (v_distr E s a) = 1;
  w_reward : forall s a o, Rabs (v_reward E s a o) <= B }.

(** Base arguments: a depth limit, heuristic values of size at most [B], a prior (if any) that is a policy. *)
Record args_make_sense (E : @environment S A) (T : @thts_args S A) (B : R) : Prop := mkSense {
  s_depth : (0 <= t_max_depth T <= 2 ^ 31 - 1)%Z;
  s_heur : forall h s, t_heuristic T = Some h -> Rabs (h s) <= B;
  s_prior : forall p, t_prior T = Some p -> forall s, NoDup (map fst (p s)) /\
    (forall a, In a (map fst (p s)) <-> In a (v_acts E s)) /\ nonneg_weights (p s) /\ total (p s) = 1 }.

(** A hash map is iterated in some order. *)
Definition iterates (order : forall V, list (A * V) -> list (A * V)) : Prop :=
  forall V (m : list (A * V)), Permutation m (order V m).
End Spec.
