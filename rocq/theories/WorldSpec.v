(** Specification vocabulary: the values of the environment itself, and trees that represent it. *)
From Coq Require Import List ZArith Bool Reals.
From Verif Require Import Base NumOps EngineModel EngineSpec AlgoModel MentsModel SoftSpec MentsSpec TentsSpec TreeSpec.
Import ListNotations.
Open Scope R_scope.

(** [v] is the greatest of the values [q] of the elements of [l]. *)
Definition greatest {A} (l : list A) (q : A -> R) (v : R) : Prop := (exists a, In a l /\ v = q a) /\ forall a, In a l -> q a <= v.
(** [v] is the most that a distribution on [l] earns in the mean, together with its [bonus]. *)
Definition greatest_mixed {A} (bonus : list A -> (A -> R) -> R) (l : list A) (q : A -> R) (v : R) : Prop :=
  (exists p, on_simplex l p /\ v = rsum_of (fun a => p a * q a) l + bonus l p) /\
  forall p, on_simplex l p -> rsum_of (fun a => p a * q a) l + bonus l p <= v.

Section World.
Context {S A : Type}.
Variable aeqb : A -> A -> bool.
Variable C : @econf S A.
Variable M : @mconf S A.
Notation dnode := (@dnode S A).
Notation store := (@store S A).

(** The mean of [g] for an outcome drawn from the distribution [l]. *)
Definition expected (g : S -> R) (l : list (S * R)) : R := rsum_of (fun p => snd p * g (fst p)) l.
(** A value seen by whoever moves at time [t]. *)
Definition to_mover (t : Z) (v : R) : R := if mtwo M && Z.odd t then - v else v.
Definition initial (s : S) : R := match heuristic C with Some h => h s | None => 0 end.

(** [V h s t] is the value of state [s] at time [t] with [h] decisions left, if [rule] says what whoever moves makes of the
    values of the actions: sinks are worth 0, states where no decision is left their heuristic value. *)
Record solves (rule : list A -> (A -> R) -> R -> Prop) (V : nat -> S -> Z -> R) : Prop := mkSolves {
  so_sink : forall h s t, is_sink C s = true -> V h s t = 0;
  so_end : forall s t, is_sink C s = false -> V 0%nat s t = initial s;
  so_step : forall h s t, is_sink C s = false ->
    rule (acts C s) (fun a => to_mover t (mreward M s a + expected (fun o => V h o (t + 1)%Z) (mdistr M s a))) (to_mover t (V (Datatypes.S h) s t))
}.

(** Rewards and heuristic values are bounded. *)
Definition world_bounds (Hb Rw : R) : Prop := 0 <= Hb /\ 0 <= Rw /\ (forall s, Rabs (initial s) <= Hb) /\ forall s a, Rabs (mreward M s a) <= Rw.

(** Every decision node of the tree where a decision is to be made has a child for every action. *)
Definition explored (m : store) : Prop := forall d n a, nth_error (dh m) d = Some n -> is_sink C (dstate n) = false ->
  (ddepth n < max_depth C)%Z -> In a (acts C (dstate n)) -> lookup aeqb a (dkids n) <> None.

(** Decisions left at a node. *)
Definition left_at (n : dnode) : nat := Z.to_nat (max_depth C - ddepth n).

(** The outcomes of every chance node were sampled as often as they are likely, up to [eps]: the sampled mean of any
    function differs from the true mean by at most [eps] times the size of the function. [w] says how many samples a
    node counts for. *)
Definition faithful (w : dnode -> Z) (eps : R) (m : store) : Prop := forall c x, nth_error (ch m) c = Some x ->
  forall g b, (forall o, Rabs (g o) <= b) ->
    Rabs (mean (map (fun k => (match nth_error (dh m) (snd k) with Some y => w y | None => 0%Z end, g (fst k))) (ckids x)) -
          expected g (mdistr M (cstate x) (cact x))) <= eps * b.

(** Actions have certain outcomes. *)
Definition deterministic : Prop := forall s a, is_sink C s = false -> In a (acts C s) -> exists o p, mdistr M s a = [(o, p)].

(** What taking action [a] at node [n] is worth in the environment, given the values [V] of states. *)
Definition action_worth (V : nat -> S -> Z -> R) (n : dnode) (a : A) : R :=
  mreward M (dstate n) a + expected (fun o => V (left_at n - 1)%nat o (dtime n + 1)%Z) (mdistr M (dstate n) a).
(** The values [vd] and [vc] that a search holds for its nodes differ from the values of the environment by at most [err]
    of the number of decisions left. *)
Definition approximates {G : @algo S A} (s : ast G) (vd : XD G -> R) (vc : XC G -> R) (V : nat -> S -> Z -> R) (err : nat -> R) : Prop :=
  (forall d n x, nth_error (dh (mem (base s))) d = Some n -> nth_error (xds s) d = Some x ->
     Rabs (vd x - V (left_at n) (dstate n) (dtime n)) <= err (left_at n)) /\
  (forall d n a c x, nth_error (dh (mem (base s))) d = Some n -> lookup aeqb a (dkids n) = Some c -> nth_error (xcs s) c = Some x ->
     Rabs (vc x - action_worth V n a) <= err (left_at n)).
(** They are those values. *)
Definition represents {G : @algo S A} (s : ast G) (vd : XD G -> R) (vc : XC G -> R) (V : nat -> S -> Z -> R) : Prop :=
  (forall d n x, nth_error (dh (mem (base s))) d = Some n -> nth_error (xds s) d = Some x -> vd x = V (left_at n) (dstate n) (dtime n)) /\
  (forall d n a c x, nth_error (dh (mem (base s))) d = Some n -> lookup aeqb a (dkids n) = Some c -> nth_error (xcs s) c = Some x ->
     vc x = action_worth V n a).
End World.

(** Sampling error [eps] at every step of [h], if the values with no decision left are at most [Hb] in size and every
    decision adds at most [Rw]. *)
Definition sampling_error (eps Hb Rw : R) (h : nat) : R := eps * (INR h * Hb + INR h * (INR h - 1) / 2 * Rw).
