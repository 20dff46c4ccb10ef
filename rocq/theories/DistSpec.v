(** Specification vocabulary for the distributions. *)
From Coq Require Import List ZArith Bool Reals Permutation.
From Verif Require Import Base NumOps HelperModel HelperSpec DistModel.
Import ListNotations.
Open Scope R_scope.

(** f 0 + ... + f (n-1). *)
Fixpoint sum_upto (n : nat) (f : nat -> R) : R :=
  match n with 0%nat => 0 | S m => sum_upto m f + f m end.

(** [w] is the weight of [k] in [m]; keys not in the map weigh nothing. *)
Definition weighs {T} (m : list (T * R)) (k : T) (w : R) : Prop :=
  In (k, w) m \/ (~ In k (map fst m) /\ w = 0).

(** A map that describes a distribution: distinct keys, non-negative weights, not all zero. *)
Definition proper {T} (m : list (T * R)) : Prop :=
  NoDup (map fst m) /\ nonneg_weights m /\ 0 < total m.

(** [sample] draws from [m] exactly: whatever the raw draws, it returns a key; with the first
    integer draw giving index i (of n = number of keys), key k is returned exactly when the next
    real draw lies in [lo i k, hi i k); and the lengths of these intervals, averaged over the n
    equally likely indices, give k its weight divided by the total. *)
Definition exact_sampler {T} (sample : rng R -> outcome (T * rng R)) (m : list (T * R)) : Prop :=
  let n := length m in
  (forall g, good_ints g -> exists k g', sample g = Ok (k, g')) /\
  exists lo hi : nat -> T -> R,
    (forall i k, 0 <= lo i k <= hi i k /\ hi i k <= 1) /\
    (forall g k, good_ints g -> good_reals g ->
       let i := Z.to_nat (gi g (ni g) mod Z.of_nat n) in
       (exists g', sample g = Ok (k, g')) <-> lo i k <= gr g (nr g) < hi i k) /\
    (forall k w, weighs m k w ->
       sum_upto n (fun i => hi i k - lo i k) / INR n = w / total m).

(** The map with the weight of an existing key replaced. *)
Definition reweight {T} (teqb : T -> T -> bool) (m : list (T * R)) (k : T) (w : R) : list (T * R) :=
  map (fun p => if teqb (fst p) k then (fst p, w) else p) m.
Definition reweight_all {T} (teqb : T -> T -> bool) (m : list (T * R)) (us : list (T * R)) : list (T * R) :=
  fold_left (fun m u => reweight teqb m (fst u) (snd u)) us m.

(** Objects with the alias method that a client can obtain from the constructor by single-weight
    updates of existing keys and replacements by maps of the same size. [cur] is the map the client
    last saw, [snap] the map at the last rebuild and [n] the number of updates since. *)
Inductive lives {T} (teqb : T -> T -> bool) (f : Z) : cat -> list (T * R) -> list (T * R) -> Z -> Prop :=
| lives_new : forall m c, NoDup (map fst m) -> cat_new R_ops m true f = Ok c -> lives teqb f c m m 0
| lives_set : forall c cur snap n reorder k w c',
    lives teqb f c cur snap n -> In k (map fst cur) ->
    cat_update teqb R_ops reorder k w c = Ok c' ->
    lives teqb f c' (reweight teqb cur k w)
      (if (n + 1 =? f)%Z then reweight teqb cur k w else snap)
      (if (n + 1 =? f)%Z then 0 else n + 1)%Z
| lives_replace : forall c cur snap n m c',
    lives teqb f c cur snap n -> length m = length cur -> NoDup (map fst m) ->
    cat_replace R_ops m c = Ok c' -> lives teqb f c' m m 0.

(** Single-weight updates applied one after the other. *)
Fixpoint update_all {T} (teqb : T -> T -> bool) (reorder : list (T * R) -> list (T * R))
  (us : list (T * R)) (c : cat) : outcome cat :=
  match us with
  | [] => Ok c
  | (k, w) :: rest => bind (cat_update teqb R_ops reorder k w c) (update_all teqb reorder rest)
  end.

(** Objects without the alias method that a client can obtain by any updates (also of new keys, after which the map
    may be iterated in another order) and replacements by any maps. [cur] is the map the client last saw. *)
Inductive plain {T} (teqb : T -> T -> bool) : cat -> list (T * R) -> Prop :=
| plain_new : forall m f c, NoDup (map fst m) -> cat_new R_ops m false f = Ok c -> plain teqb c m
| plain_set : forall c cur reorder k w c', plain teqb c cur -> (forall l, Permutation (reorder l) l) -> In k (map fst cur) ->
    cat_update teqb R_ops reorder k w c = Ok c' -> plain teqb c' (reweight teqb cur k w)
| plain_add : forall c cur reorder k w c', plain teqb c cur -> (forall l, Permutation (reorder l) l) -> ~ In k (map fst cur) ->
    cat_update teqb R_ops reorder k w c = Ok c' -> plain teqb c' ((k, w) :: cur)
| plain_replace : forall c cur m c', plain teqb c cur -> NoDup (map fst m) -> cat_replace R_ops m c = Ok c' -> plain teqb c' m.
