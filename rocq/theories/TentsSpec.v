(** Specification vocabulary for TENTS and RENTS. *)
From Coq Require Import List ZArith Bool Reals Sorted Permutation.
From Verif Require Import Base NumOps HelperModel HelperSpec EngineModel EngineSpec MapModel AlgoModel MentsModel SoftSpec MentsSpec.
Import ListNotations.
Open Scope R_scope.

Section Simplex.
Context {A : Type}.
(** Probability vectors on [l]. *)
Definition on_simplex (l : list A) (p : A -> R) : Prop := (forall a, In a l -> 0 <= p a) /\ rsum_of p l = 1.
(** Squared distance. *)
Definition dist2 (l : list A) (p z : A -> R) : R := rsum_of (fun a => (p a - z a) ^ 2) l.
(** [p] is the point of the simplex nearest to [z]. *)
Definition projection (l : list A) (z p : A -> R) : Prop :=
  on_simplex l p /\ forall p', on_simplex l p' -> dist2 l p z <= dist2 l p' z.
(** Expected value plus Tsallis entropy of [p]. *)
Definition sparse_objective (l : list A) (z p : A -> R) : R :=
  rsum_of (fun a => p a * z a) l + 1 / 2 * (1 - rsum_of (fun a => p a ^ 2) l).
(** [v] is the largest value of that objective: the sparse maximum of [z]. *)
Definition sparse_max (l : list A) (z : A -> R) (v : R) : Prop :=
  (exists p, on_simplex l p /\ v = sparse_objective l z p) /\ forall p, on_simplex l p -> sparse_objective l z p <= v.

(** The two maps of a node hold the same pairs, one for each action of [l], and the second is ordered by value. *)
Record maps_ok (l : list A) (x : @tmem A) : Prop := mkMaps {
  mo_keys : forall a, In a (map fst (t_a2q x)) <-> In a l;
  mo_nodup : NoDup (map fst (t_a2q x));
  mo_same : Permutation (map (fun p => (snd p, fst p)) (t_a2q x)) (t_q2a x);
  mo_sorted : StronglySorted (fun p q : R * A => fst p <= fst q) (t_q2a x)
}.
(** They hold the values [z]. *)
Definition maps_hold (l : list A) (x : @tmem A) (z : A -> R) : Prop :=
  maps_ok l x /\ forall a, In a l -> In (a, z a) (t_a2q x) /\ In (z a, a) (t_q2a x).
End Simplex.

Section Context.
Context {A : Type}.
(** ** The trial's context. Actions of the trial are listed with the latest first: the one taken at depth k is
    followed by k others. *)
(** TENTS: under each depth of the trial is the action taken there. *)
Definition tents_trail (l : list A) (cx : list (Z * A)) : Prop :=
  forall l1 a l2, l = l1 ++ a :: l2 -> mat Z.eqb cx (Z.of_nat (length l2)) = Ok a.
(** RENTS: under each depth of the trial is a policy from which the action taken there can be drawn. *)
Definition rents_trail (l : list A) (cx : list (Z * list (A * R))) : Prop :=
  forall l1 a l2, l = l1 ++ a :: l2 -> exists m p, mat Z.eqb cx (Z.of_nat (length l2)) = Ok m /\ In (a, p) m.
End Context.

Section Trials.
Context {S A : Type}.
Variable seqb : S -> S -> bool.
Variable C : @econf S A.
(** The nodes of a trial in progress at decision node [cur]: each (decision node, chance node) of the list was
    visited in the trial [w] and led to the next one. *)
Inductive linked (m : @store S A) (w : list (@event S A)) : nat -> list (nat * nat) -> Prop :=
| lk_root : forall cur n, nth_error (dh m) cur = Some n -> ddepth n = 0%Z -> linked m w cur []
| lk_step : forall cur p c nodes a o n np, In (EVisitD p a c) w -> cchild seqb m c o cur -> nth_error (dh m) cur = Some n ->
    nth_error (dh m) p = Some np -> ddepth n = (ddepth np + 1)%Z -> linked m w p nodes -> linked m w cur ((p, c) :: nodes).

(** In state [s] thread [t] is at decision node [d] (with members [x] and the trial's context [cx]) and selects
    action [a], which leaves the context [cx1]. *)
Definition selects_now {G : @algo S A} (s : ast G) (t d : nat) (n : @dnode S A) (x : XD G) (cx : CX G) (a : A) (cx1 : CX G) (g1 : rng R) : Prop :=
  exists flag nodes rewards, nth_error (ths (base s)) t = Some (TSel d flag nodes rewards) /\
    nth_error (dh (mem (base s))) d = Some n /\ nth_error (xds s) d = Some x /\ nth_error (cxs s) t = Some cx /\
    should_continue C n flag = true /\ afail s = None /\
    select G (visit_d n) (vis_d G (is_leaf C n) x) (dview s n) cx (rg s) = Ok (a, cx1, g1).
End Trials.

Section Updates.
Context {A : Type}.
(** The last value given to [a] in a sequence of updates. *)
Definition last_given (us : list (A * R)) (a : A) (v : R) : Prop := exists u1 u2, us = u1 ++ (a, v) :: u2 /\ ~ In a (map fst u2).
End Updates.

Section Waiting.
Context {S A : Type}.
(** A worker whose trial went through decision node [d] and has not backed it up yet. *)
Definition owes_backup (th : @tstate A) (d : nat) : Prop :=
  match th with
  | TSel _ _ nodes _ | TBack nodes _ _ _ _ => In d (map fst nodes)
  | TChance cur _ _ _ nodes _ => cur = d \/ In d (map fst nodes)
  | TBackD cur nodes _ _ _ _ => cur = d \/ In d (map fst nodes)
  | _ => False
  end.
(** No worker does. *)
Definition settled (s : @EngineModel.est S A) (d : nat) : Prop := forall t th, nth_error (ths s) t = Some th -> ~ owes_backup th d.
End Waiting.

Section At.
Context {A : Type}.
(** A worker selecting an action at decision node [d], or backing it up, after the (decision, chance) nodes [nodes]. *)
Definition at_decision (th : @tstate A) (d : nat) (nodes : list (nat * nat)) : Prop :=
  match th with
  | TSel cur _ l _ => cur = d /\ l = nodes
  | TBackD cur l _ _ _ _ => cur = d /\ l = nodes
  | _ => False
  end.
End At.

Section Relative.
Context {A : Type}.
(** [f a] is the probability of [a] under the parent's policy: one if there is no parent, zero if the policy does not
    have the action. *)
Definition shares (parent : option (list (A * R))) (f : A -> R) : Prop :=
  forall a, match parent with
            | None => f a = 1
            | Some m => In (a, f a) m \/ ~ In a (map fst m) /\ f a = 0
            end.
(** Boltzmann weights relative to another policy. *)
Definition relative (t : R) (f q : A -> R) (l : list A) : R := rsum_of (fun b => f b * exp (q b / t)) l.
Definition relative_boltzmann (t : R) (f q : A -> R) (l : list A) (a : A) : R := f a * exp (q a / t) / relative t f q l.
End Relative.

Section Look.
Context {S A : Type}.
(** The policy a node at depth k looks up: the one stored under depth k - 1, none at the root. *)
Definition looks_up (n : @dnode S A) (cx : list (Z * list (A * R))) (parent : option (list (A * R))) : Prop :=
  (ddepth n <= 0)%Z /\ parent = None \/ (0 < ddepth n)%Z /\ exists m, mat Z.eqb cx (ddepth n - 1)%Z = Ok m /\ parent = Some m.
End Look.
