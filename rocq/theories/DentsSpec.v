(** Specification vocabulary for the values and entropies of DB-MENTS, DENTS and EST. *)
From Coq Require Import List ZArith Bool Reals.
From Verif Require Import Base NumOps HelperModel HelperSpec EngineModel EngineSpec AlgoModel MentsModel SoftSpec MentsSpec RecSpec.
Import ListNotations.
Open Scope R_scope.

Section Spec.
Context {S A : Type}.
Variable C : @econf S A.
Variable M : @mconf S A.

(** Rewards lie between [rl] and [ru] and values of end points between [hl] and [hu]; zero is allowed in both. *)
Record range_ok (hl hu rl ru : R) : Prop := mkRange {
  ra_zero : hl <= 0 <= hu;
  ra_none : rl <= 0 <= ru;
  ra_heur : forall h s, heuristic C = Some h -> hl <= h s <= hu;
  ra_reward : forall s a, rl <= mreward M s a <= ru
}.
(** The range of what can still be collected at [depth]: at most one reward per remaining step, then an end value. *)
Definition least_left (hl rl : R) (depth : Z) : R := hl + IZR (max_depth C - depth) * rl.
Definition most_left (hu ru : R) (depth : Z) : R := hu + IZR (max_depth C - depth) * ru.

(** Largest entropy of a search policy over at most [N] actions, of which entries below 10^-16 may be missing, ... *)
Definition entropy_cap (N : R) : R := ln N + N / IZR (10 ^ 16).
(** ... and of a whole subtree at [depth]. *)
Definition entropy_left (N : R) (depth : Z) : R := IZR (max_depth C - depth + 1) * entropy_cap N.

(** Settings under which the exploration share of a node that was not visited yet is defined. *)
Definition fresh_known : Prop := (1 <= init_visits C)%Z \/ 0 < meps M.
End Spec.

Section Policy.
Context {S A : Type}.
Variable aeqb : A -> A -> bool.
Variable C : @econf S A.
Variable M : @mconf S A.

(** [m] is the search policy at [n] for action values [q]: it holds the entries of at least 1e-16 of a mixture of the
    Boltzmann distribution of the values, the prior and the uniform distribution. The mixture is a distribution that
    gives every action its share of exploration and prefers actions with larger values. *)
Definition search_policy (n : @dnode S A) (q : A -> R) (m : list (A * R)) : Prop :=
  exists pi : A -> R,
    holds_from (1 / IZR (10 ^ 16)) pi (acts C (dstate n)) m /\
    (forall a, pi a = mixture aeqb C M n (boltzmann (ments_temp M n) q (acts C (dstate n))) a) /\
    rsum_of pi (acts C (dstate n)) = 1 /\
    (forall a, In a (acts C (dstate n)) -> 0 <= pi a /\ explore_rate M n / INR (length (acts C (dstate n))) <= pi a) /\
    (0 < ments_temp M n -> explore_rate M n < 1 -> prior_rate M n < 1 ->
     forall a b, In a (acts C (dstate n)) -> In b (acts C (dstate n)) ->
       prior_prob aeqb M n a <= prior_prob aeqb M n b -> q a < q b -> pi a < pi b).

(** Settings and visits for which the mixture is a distribution. *)
Definition policy_sane (n : @dnode S A) : Prop :=
  rate_known M n /\ prior_policy C M /\ explore_ok M /\ (0 <= dvisits n)%Z /\ (0 < mprior_w M -> mprior M <> None) /\
  mprior_w M <= ln (IZR (dvisits n) + 3) /\ NoDup (acts C (dstate n)) /\ acts C (dstate n) <> [].

(** Estimate kept at chance nodes of DENTS and EST: a dynamic programming value or the mean return. *)
Definition estimate (y : dcmem) : R := v_val (if muse_dp M then dc_dp y else dc_emp y).
(** Entropy of the policy below a chance node; 0 stands for an undefined one. *)
Definition entropy_below (y : dcmem) : R := match ec_sub (dc_ent y) with Some h => h | None => 0 end.

(** The recommendation by value: any valid action at a node without children, otherwise a child of best value among
    those with enough backups (among all if there are none). *)
Definition best_by_value (n : @dnode S A) (kids : list (A * vmem)) (a : A) : Prop :=
  match kids with
  | [] => In a (acts C (dstate n))
  | _ => exists v : A -> R, (forall b y, In (b, y) kids -> v b = seen M n (v_val y)) /\
           best_choice (map fst kids) (backed_up_enough M kids) v a
  end.
End Policy.
