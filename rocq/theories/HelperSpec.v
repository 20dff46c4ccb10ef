(** Specification vocabulary for the helper templates. *)
From Coq Require Import List ZArith Bool Reals.
From Verif Require Import Base NumOps HelperModel.
Import ListNotations.

(** Strict total order given by a boolean test. *)
Record strict_total {V} (ltb : V -> V -> bool) : Prop := mkST {
  st_irrefl : forall x, ltb x x = false;
  st_trans : forall x y z, ltb x y = true -> ltb y z = true -> ltb x z = true;
  st_total : forall x y, ltb x y = false -> ltb y x = false -> x = y
}.

(** [k] is a key of [m] whose value nothing in [m] exceeds. *)
Definition maximal {T V} (ltb : V -> V -> bool) (m : list (T * V)) (k : T) : Prop :=
  exists v, In (k, v) m /\ forall k' v', In (k', v') m -> ltb v v' = false.

(** The raw integer draws are outputs of uniform_int_distribution(0, RAND_MAX). *)
Definition good_ints {N} (g : rng N) : Prop := forall i, (0 <= gi g i)%Z.
Definition good_reals (g : rng R) : Prop := forall i, (0 <= gr g i < 1)%R.

(** Total weight of a distribution. *)
Fixpoint total {T} (m : list (T * R)) : R :=
  match m with [] => 0%R | (_, w) :: r => (w + total r)%R end.

Definition positive_weights {T} (m : list (T * R)) : Prop := forall k w, In (k, w) m -> (0 < w)%R.
Definition nonneg_weights {T} (m : list (T * R)) : Prop := forall k w, In (k, w) m -> (0 <= w)%R.

(** [u] falls in the interval that [k] owns when the entries are laid out one after the other on
    the line, each as long as its probability. *)
Definition owns {T} (m : list (T * R)) (s : R) (u : R) (k : T) : Prop :=
  exists m1 w m2, m = m1 ++ (k, w) :: m2 /\ (total m1 / s <= u < (total m1 + w) / s)%R.

(** The generator after exactly one real draw. *)
Definition one_real {N} (g g' : rng N) : Prop :=
  gi g' = gi g /\ gr g' = gr g /\ ni g' = ni g /\ nr g' = S (nr g).
Definition one_int {N} (g g' : rng N) : Prop :=
  gi g' = gi g /\ gr g' = gr g /\ ni g' = S (ni g) /\ nr g' = nr g.
