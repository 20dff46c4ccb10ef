(** Specification vocabulary for MENTS and its relatives. *)
From Coq Require Import List ZArith Bool Reals Permutation.
From Verif Require Import Base NumOps HelperModel HelperSpec EngineModel EngineSpec AlgoModel MentsModel SoftSpec.
Import ListNotations.
Open Scope R_scope.

Section Spec.
Context {S A : Type}.
Variable aeqb : A -> A -> bool.
Variable C : @econf S A.
Variable M : @mconf S A.
Notation dnode := (@dnode S A).
Notation cnode := (@cnode S A).

(** The opponent moves at odd timesteps of two-player games. *)
Definition opponent (n : dnode) : bool := mtwo M && Z.odd (dtime n).
(** A value seen by the player who moves at [n]. *)
Definition seen (n : dnode) (v : R) : R := if opponent n then - v else v.

(** Logarithm of a prior weight, with the two constants used at the ends. *)
Definition clamped_log (w : R) : R :=
  if Rle_dec (IZR (10 ^ 32)) w then 32 else if Rlt_dec (1 / IZR (10 ^ 32)) w then ln w else -32.
(** The value of action [a] for the player who moves at [n]: that of the child if there is one, otherwise the
    logarithm of the prior shifted by [off], otherwise the default. *)
Inductive q_of {X} (val : X -> R) (n : dnode) (off : R) (kids : list (A * (cnode * X))) (a : A) : R -> Prop :=
| q_child : forall c x, In (a, (c, x)) kids -> q_of val n off kids a (seen n (val x))
| q_prior : forall p w, ~ In a (map fst kids) -> mprior M = Some p -> In (a, w) (p (dstate n)) ->
    q_of val n off kids a (clamped_log w + off)
| q_default : ~ In a (map fst kids) -> mprior M = None -> q_of val n off kids a (seen n (mdefault_q M)).

(** A prior is a map with an entry for every action. *)
Definition prior_total (n : dnode) : Prop :=
  forall p, mprior M = Some p ->
    NoDup (map fst (p (dstate n))) /\ forall a, In a (acts C (dstate n)) -> In a (map fst (p (dstate n))).
Definition prior_prob (n : dnode) (a : A) : R :=
  match mprior M with
  | Some p => match lookup aeqb a (p (dstate n)) with Some w => w | None => 0 end
  | None => 0
  end.
(** Share of the prior in the search policy. *)
Definition prior_rate (n : dnode) : R :=
  if Rlt_dec 0 (mprior_w M) then mprior_w M / ln (IZR (dvisits n) + 3) else 0.
(** Share of uniform exploration. *)
Definition node_eps (n : dnode) : R :=
  if Z.eq_dec (ddepth n) 0 then (if Rlt_dec 0 (mroot_eps M) then mroot_eps M else meps M) else meps M.
Definition explore_rate (n : dnode) : R :=
  if Z.eq_dec (dvisits n) 0 then mmax_explore M else Rmin (mmax_explore M) (node_eps n / ln (IZR (dvisits n) + 1)).
(** The share is defined, which at unvisited nodes needs a positive epsilon. *)
Definition rate_known (n : dnode) : Prop := (1 <= dvisits n)%Z \/ dvisits n = 0%Z /\ 0 < node_eps n.
(** The search policy for action weights [b] that sum to one. *)
Definition mixture (n : dnode) (b : A -> R) (a : A) : R :=
  (1 - explore_rate n) * ((1 - prior_rate n) * b a + prior_rate n * prior_prob n a) +
  explore_rate n / INR (length (acts C (dstate n))).

(** Boltzmann weights. *)
Definition boltzmann (t : R) (q : A -> R) (l : list A) (a : A) : R := exp (q a / t) / rsum_of (fun b => exp (q b / t)) l.

(** [m] holds the entries of [f] on [l] that are at least [e]. *)
Definition holds_from (e : R) (f : A -> R) (l : list A) (m : list (A * R)) : Prop :=
  NoDup (map fst m) /\ forall a p, In (a, p) m <-> In a l /\ p = f a /\ e <= p.

(** Hash maps are iterated in some order; outcomes are those of the transition distribution. *)
Definition ments_ok : Prop :=
  (forall V (m : list (A * V)), Permutation m (morder M V m)) /\
  forall s a, succs C s a = map fst (mdistr M s a).

(** ** Assumptions on settings *)

(** States that are not sinks have actions, no action is listed twice, and transition probabilities are positive
    and sum to one. *)
Record env_ok : Prop := mkEnvOk {
  eo_acts : forall s, is_sink C s = false -> acts C s <> [];
  eo_nodup : forall s, NoDup (acts C s);
  eo_distr : forall s a, is_sink C s = false -> In a (acts C s) ->
     positive_weights (mdistr M s a) /\ total (mdistr M s a) = 1;
  eo_depth : (0 <= max_depth C)%Z;
  eo_visits : (0 <= init_visits C)%Z
}.
(** Temperatures are positive and decay by a decay function. *)
Definition temps_ok : Prop :=
  0 < mtemp M /\
  forall f, mdecay M = Some f -> decay_function f /\ 0 < mmin_temp M /\ 0 <= mscale M.
(** Exploration shares are probabilities. *)
Definition explore_ok : Prop := 0 <= meps M /\ 0 <= mmax_explore M <= 1.
(** A prior policy is a distribution on the actions ... *)
Definition prior_policy : Prop :=
  forall p, mprior M = Some p -> forall s, NoDup (map fst (p s)) /\
    (forall a, In a (map fst (p s)) <-> In a (acts C s)) /\ nonneg_weights (p s) /\ total (p s) = 1.
(** ... and its share in the search policy is at most one. *)
Definition prior_ok : Prop :=
  prior_policy /\
  (mprior_w M <= 0 \/ mprior M <> None /\ mprior_w M <= ln 3).
(** Rewards and initial values are at most [B] in size. *)
Record values_ok (B : R) : Prop := mkValOk {
  vo_reward : forall s a, Rabs (mreward M s a) <= B;
  vo_heur : forall h s, heuristic C = Some h -> Rabs (h s) <= B;
  vo_default : Rabs (mdefault_q M) <= B;
  vo_prior : mprior M <> None -> 256 + Rabs (moffset M) <= B
}.
(** States have at most [N] actions. *)
Definition few_actions (N : R) : Prop := 1 <= N /\ forall s, INR (length (acts C s)) <= N.

(** Bound for soft values of decision nodes at [depth]: every step adds a reward and the entropy bonus. *)
Definition value_bound (B N : R) (depth : Z) : R :=
  B + IZR (max_depth C - depth) * (B + Rmax (mtemp M) (mmin_temp M) * ln N).
(** A lower bound for Boltzmann weights of values within [value_bound]. *)
Definition least_temp : R := match mdecay M with None => mtemp M | Some _ => mmin_temp M end.
Definition least_weight (B N : R) : R := exp (- (2 * value_bound B N 0 / least_temp)) / N.
End Spec.
