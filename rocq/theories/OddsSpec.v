(** Specification vocabulary: shares of random draws, and schedulers that cannot see the future. *)
From Coq Require Import List ZArith Bool Reals.
From Verif Require Import Base NumOps HelperModel EngineModel EngineSpec AlgoModel SoftSpec WorldSpec ConvSpec.
Import ListNotations.
Open Scope R_scope.

(** [u] is a sequence of [T] raw draws, each one of [N] values. *)
Definition word (N T : nat) (u : list nat) : Prop := length u = T /\ forall i, In i u -> (i < N)%nat.
(** [P] holds for all but a share [delta] of the [N ^ T] sequences of [T] raw draws. *)
Definition all_but (delta : R) (N T : nat) (P : list nat -> Prop) : Prop :=
  exists bad, INR (length bad) <= delta * INR N ^ T /\ forall u, word N T u -> ~ In u bad -> P u.
(** The generator whose uniform numbers are those draws, divided by [N]; its integers are arbitrary. *)
Definition dice (ints : nat -> Z) (N : nat) (u : list nat) : rng R := mkRng ints (fun i => INR (nth i u 0%nat) / INR N) 0 0.
(** All probabilities are multiples of [1/N], so that such draws can be exact. *)
Definition multiples {T} (N : nat) (l : list (T * R)) : Prop := forall p, In p l -> exists k, snd p = INR k / INR N.

Section Runs.
Context {S A : Type}.
Variable seqb : S -> S -> bool.
Variable aeqb : A -> A -> bool.
Variable C : @econf S A.
Variable G : @algo S A.
(** The state after [k] steps, if the threads run in the order given by a scheduler that knows how many steps were taken and
    all uniform numbers used so far (and so everything that happened), but not the coming ones. *)
Fixpoint follow (sched : nat -> list R -> alabel) (k : nat) (s0 : ast G) : option (ast G) :=
  match k with
  | O => Some s0
  | Datatypes.S k' => match follow sched k' s0 with
      | Some s => astep seqb aeqb C G (sched k' (map (gr (rg s)) (seq 0 (nr (rg s))))) s
      | None => None
      end
  end.

(** [N] values per draw can express the probabilities of all outcomes. *)
Definition exact_draws (distr : S -> A -> list (S * R)) (N : nat) : Prop :=
  (0 < N)%nat /\ forall s a, is_sink C s = false -> In a (acts C s) -> multiples N (distr s a).
(** What the search can look like if [n] threads run by [sched] and draw [u] (and the integers [ints]). *)
Definition outcome_of (n : nat) (ints : nat -> Z) (N : nat) (sched : nat -> list R -> alabel) (u : list nat) (s : ast G) : Prop :=
  exists k, follow sched k (ainit C G n (dice ints N u)) = Some s.
(** [P] holds with probability at least [1 - delta], throughout the search, until more than [M] trials were started. A trial
    draws at most two numbers per level of the tree, so [T] draws are enough. *)
Definition surely_but (delta : R) (n : nat) (ints : nat -> Z) (N : nat) (sched : nat -> list R -> alabel) (M : Z) (P : ast G -> Prop) : Prop :=
  forall T, (2 * max_depth C * M <= Z.of_nat T)%Z ->
  all_but delta N T (fun u => forall s, outcome_of n ints N sched u s -> (count is_start (etrace (base s)) <= M)%Z -> P s).
End Runs.

(** Sampling from the outcome distributions [distr] is fair: at every moment of the search and for every chance node with at
    least [K delta] samples, the sampled mean of any function between -1 and 1 differs from its mean under the distribution by
    at most [delta]. *)
Definition fair_to {S A} (distr : S -> A -> list (S * R)) (K : R -> Z) (s : @est S A) : Prop := forall c x later tr, nth_error (ch (mem s)) c = Some x ->
  etrace s = later ++ tr -> forall delta g, 0 < delta -> (forall o, Rabs (g o) <= 1) ->
  (K delta <= Z.of_nat (length (sampled c tr)))%Z ->
  Rabs (rsum_of g (sampled c tr) - INR (length (sampled c tr)) * expected g (distr (cstate x) (cact x)))
    <= delta * INR (length (sampled c tr)).
