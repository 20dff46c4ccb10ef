(** Specification vocabulary for evaluations. *)
From Coq Require Import List ZArith Bool Reals.
From Verif Require Import Base NumOps HelperModel EvalModel.
Import ListNotations.
Open Scope R_scope.

Section Spec.
Context {S A O DN CN : Type}.
Variable T : @tree A O DN CN.
Variable E : @env S A O.

(** The tree node at the end of a sequence of steps (earliest first), if all of it is in the tree. *)
Fixpoint walk (d : option DN) (steps : list (A * O)) : option DN :=
  match steps with
  | [] => d
  | (a, o) :: rest =>
      match d with
      | None => None
      | Some x => match kid_c T x a with
                  | None => None
                  | Some c => walk (kid_d T c o) rest
                  end
      end
  end.

(** A result of a function of the generator for some state of a generator with these streams. *)
Definition possible {X} (g0 : rng R) (f : rng R -> outcome (X * rng R)) (x : X) : Prop :=
  exists g g', gi g = gi g0 /\ gr g = gr g0 /\ f g = Ok (x, g').
(** [f] only moves along the streams. *)
Definition advances {X} (f : rng R -> outcome (X * rng R)) : Prop :=
  forall g x g', f g = Ok (x, g') -> gi g' = gi g /\ gr g' = gr g.

(** A uniformly random valid action: position (draw mod number of valid actions). *)
Definition random_choice (s : S) (g : rng R) : outcome (A * rng R) :=
  match nth_error (valid E s) (Z.to_nat (gi g (ni g) mod Z.of_nat (length (valid E s)))) with
  | Some a => Ok (a, mkRng (gi g) (gr g) (Datatypes.S (ni g)) (nr g))
  | None => UB
  end.

(** [rollout g0 root h s]: [h] (earliest step first) is a sequence of steps from the initial state to [s] in which no
    step leaves a sink state, every action is one that the policy can choose (the recommendation of the node reached by
    the steps so far, or any valid action if there is no such node) and states and observations are possible outcomes. *)
Inductive rollout (g0 : rng R) (root : option DN) : list (S * A * O * S) -> S -> Prop :=
| ro_start : rollout g0 root [] (init_state E)
| ro_step : forall h s a o s', rollout g0 root h s -> sink E s = false ->
    match walk root (map (fun '(_, a, o, _) => (a, o)) h) with
    | Some d => possible g0 (recommend T d) a
    | None => In a (valid E s)
    end ->
    possible g0 (next E s a) s' -> possible g0 (observe E a s') o ->
    rollout g0 root (h ++ [(s, a, o, s')]) s'.

(** Sum of rewards. *)
Fixpoint total_reward (h : list (S * A * O * S)) : R :=
  match h with [] => 0 | (s, a, o, _) :: r => reward E s a o + total_reward r end.
End Spec.

(** Arithmetic mean, sample variance and sample standard deviation. *)
Fixpoint sum (l : list R) : R := match l with [] => 0 | x :: r => x + sum r end.
Definition mean (l : list R) : R := sum l / INR (length l).
Definition variance (l : list R) : R := sum (map (fun x => (x - mean l) ^ 2) l) / (INR (length l) - 1).
Definition stddev (l : list R) : R := sqrt (variance l).

(** The tree of a search, with a recommendation for each node. *)
From Verif Require Import EngineModel.
Definition tree_of {S A} (seqb : S -> S -> bool) (aeqb : A -> A -> bool) (m : @store S A)
  (rec : nat -> @dnode S A -> rng R -> outcome (A * rng R)) : @tree A S nat nat :=
  mkTree (fun d a => match nth_error (dh m) d with Some x => lookup aeqb a (dkids x) | None => None end)
         (fun c o => match nth_error (ch m) c with Some x => lookup seqb o (ckids x) | None => None end)
         (fun d g => match nth_error (dh m) d with Some x => rec d x g | None => UB end)
         (fun _ => false).
(** A fully observable environment with the search's states, actions and rewards, and a function sampling next states. *)
Definition env_of {S A} (C : @econf S A) (nx : S -> A -> rng R -> outcome (S * rng R)) : @env S A S :=
  mkEnv (root_state C) (is_sink C) (acts C) nx (fun _ s g => Ok (s, g)) (rwd C) false.
