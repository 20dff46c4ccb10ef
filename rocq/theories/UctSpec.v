(** Specification vocabulary for UCT and PUCT. *)
From Coq Require Import List ZArith Bool Reals Permutation.
From Verif Require Import Base NumOps HelperModel HelperSpec EngineModel EngineSpec AlgoModel UctModel.
Import ListNotations.

Section Spec.
Context {S A : Type}.
Variable aeqb : A -> A -> bool.
Variable C : @econf S A.
Variable U : @uconf S A.

(** The returns with which a decision node / chance node was backed up, newest first. *)
Definition returns_d (d : nat) (tr : list (nat * @event S A)) : list R :=
  flat_map (fun p => match snd p with
                     | EBackD d' _ _ r _ => if Nat.eqb d' d then [r] else []
                     | _ => [] end) tr.
Definition returns_c (c : nat) (tr : list (nat * @event S A)) : list R :=
  flat_map (fun p => match snd p with
                     | EBackC c' _ _ r _ => if Nat.eqb c' c then [r] else []
                     | _ => [] end) tr.

(** [x] is the average of [l] in which [h] is counted [w] times more; [h] itself if there is nothing to
    average. *)
Definition is_mean (w : Z) (h : R) (l : list R) (nb : Z) (avg : R) : Prop :=
  nb = (w + Z.of_nat (length l))%Z /\
  (nb = 0%Z -> avg = h) /\
  (nb <> 0%Z -> avg = ((IZR w * h + rsum l) / IZR nb)%R).

(** Pseudo trials exist only with a heuristic function. *)
Definition pseudo : Z := match heuristic C with Some _ => upseudo U | None => 0%Z end.

(** The configuration is one that the UctManager can have: hash maps are iterated in some order,
    the initial visit count is the number of pseudo trials, outcomes are those of the transition
    distribution. *)
Definition uct_ok : Prop :=
  (forall V (m : list (A * V)), Permutation m (uorder U V m)) /\
  init_visits C = pseudo /\ (0 <= upseudo U)%Z /\
  forall s a, succs C s a = map fst (udistr U s a).

(** The actions selected at node [d], newest first. *)
Definition selected (d : nat) (tr : list (nat * @event S A)) : list A :=
  flat_map (fun p => match snd p with
                     | EVisitD d' a _ => if Nat.eqb d' d then [a] else []
                     | _ => [] end) tr.

(** What a decision node knows about the child of action [a]; zero if there is none. *)
Definition kid_avg (kids : list (A * (@cnode S A * ux))) (a : A) : R :=
  match lookup aeqb a kids with Some (_, x) => uavg x | None => 0%R end.
Definition kid_visits (kids : list (A * (@cnode S A * ux))) (a : A) : Z :=
  match lookup aeqb a kids with Some (c, _) => cvisits c | None => 0%Z end.

(** The automatic bias: the largest absolute child value, at least 0.001. *)
Definition auto_bias (l : list A) (kids : list (A * (@cnode S A * ux))) : R :=
  fold_right Rmax (1/1000)%R (map (fun a => Rabs (kid_avg kids a)) l).
Definition bias_of (l : list A) (kids : list (A * (@cnode S A * ux))) : R :=
  if Req_EM_T (ubias U) (-1)%R then auto_bias l kids else ubias U.

(** -1 for the opponent, who moves at odd timesteps of two-player games. *)
Definition coeff (n : @dnode S A) : R := if utwo U && Z.odd (dtime n) then (-1)%R else 1%R.

Definition prior_of (n : @dnode S A) (a : A) : R :=
  match uprior U with
  | None => 1%R
  | Some p => match lookup aeqb a (p (dstate n)) with Some w => w | None => 0%R end
  end.

(** The UCB value of action [a] at node [n]. *)
Definition score (n : @dnode S A) (kids : list (A * (@cnode S A * ux))) (a : A) : R :=
  (coeff n * kid_avg kids a +
   prior_of n a * bias_of (acts C (dstate n)) kids * uterm U (dvisits n) (kid_visits kids a))%R.

(** Every action of the node's state has a prior (if there are priors). *)
Definition prior_covers (n : @dnode S A) : Prop :=
  match uprior U with
  | None => True
  | Some p => forall a, In a (acts C (dstate n)) -> In a (map fst (p (dstate n)))
  end.

(** Environments and settings for which a search has to work: states that are no sinks have actions, their
    outcome distributions are positive and sum to one, rewards and heuristic values are bounded (so that
    returns are doubles), priors exist and are not negative, the bias is automatic or not negative. *)
Definition sane (B : R) : Prop :=
  (forall s, is_sink C s = false -> acts C s <> []) /\
  (forall s a, is_sink C s = false -> In a (acts C s) ->
     (forall p, In p (udistr U s a) -> (0 < snd p)%R) /\ total (udistr U s a) = 1%R) /\
  (forall s a o, (Rabs (rwd C s a o) <= B)%R) /\
  (forall h s, heuristic C = Some h -> (Rabs (h s) <= B)%R) /\
  (0 <= B)%R /\ (0 <= max_depth C)%Z /\ ((IZR (max_depth C) + 1) * B <= - dbl_lowest)%R /\
  (forall p, uprior U = Some p -> forall s,
     (forall a, In a (acts C s) -> In a (map fst (p s))) /\ (forall q, In q (p s) -> (0 <= snd q)%R)) /\
  (ubias U = -1 \/ 0 <= ubias U)%R /\ (forall n c, (0 <= uterm U n c)%R).
End Spec.
