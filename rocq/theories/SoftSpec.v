(** Specification vocabulary for the soft-value algorithms (MENTS and relatives). *)
From Coq Require Import List ZArith Bool Reals.
From Verif Require Import Base EngineSpec HelperSpec.
Import ListNotations.
Open Scope R_scope.

(** Sum of [f] over a list. *)
Definition rsum_of {T} (f : T -> R) (l : list T) : R := rsum (map f l).

(** [v] is the mean of the values in [l] weighted by their counts; 0 if all counts are 0. *)
Definition weighted_mean (l : list (Z * R)) (v : R) : Prop :=
  let n := rsum_of (fun p => IZR (fst p)) l in
  (n = 0 -> v = 0) /\ (n <> 0 -> v * n = rsum_of (fun p => IZR (fst p) * snd p) l).

(** [v] is the largest of the values with a positive count. *)
Definition is_max (l : list (Z * R)) (v : R) : Prop :=
  (exists n, In (n, v) l /\ (0 < n)%Z) /\ forall n x, In (n, x) l -> (0 < n)%Z -> x <= v.
(** The smallest. *)
Definition is_min (l : list (Z * R)) (v : R) : Prop :=
  (exists n, In (n, v) l /\ (0 < n)%Z) /\ forall n x, In (n, x) l -> (0 < n)%Z -> v <= x.

(** Log-sum-exp value of [qs] at temperature [t]. *)
Definition soft_max (t : R) (qs : list R) : R := t * ln (rsum_of (fun q => exp (q / t)) qs).
Definition soft_min (t : R) (qs : list R) : R := - soft_max t (map Ropp qs).

(** A probability distribution on the keys of [m]. *)
Definition distribution {T} (m : list (T * R)) : Prop := NoDup (map fst m) /\ nonneg_weights m /\ total m = 1.

(** Shannon entropy of the probabilities [ps], with 0 log 0 = 0. *)
Definition shannon (ps : list R) : R := - rsum_of (fun p => if Req_EM_T p 0 then 0 else p * ln p) ps.

(** Decay functions used for temperatures: 1 at zero, positive and not increasing. *)
Definition decay_function (f : R -> R) : Prop :=
  f 0 = 1 /\ (forall x, 0 <= x -> 0 < f x) /\ forall x y, 0 <= x <= y -> f y <= f x.
