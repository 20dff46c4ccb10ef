(** Specification of random choices. *)
From Coq Require Import List ZArith.
From Verif Require Import Base HelperModel HelperSpec.
Import ListNotations.

(** [f] chooses fairly among the elements that satisfy [P]: there is a fixed list of exactly these
    elements, without repetitions, and for every state of the generator [f] succeeds and returns the
    one at position (integer draw modulo their number). *)
Definition picks {T N} (f : rng N -> outcome (T * rng N)) (P : T -> Prop) : Prop :=
  exists ks, NoDup ks /\ ks <> [] /\ (forall k, In k ks <-> P k) /\
    forall g, good_ints g -> exists k g',
      f g = Ok (k, g') /\ gi g' = gi g /\ gr g' = gr g /\
      nth_error ks (Z.to_nat (gi g (ni g) mod Z.of_nat (length ks))) = Some k.

(** [f] succeeds for every state of the generator and returns an element that satisfies [P]. *)
Definition always {T N} (f : rng N -> outcome (T * rng N)) (P : T -> Prop) : Prop :=
  forall g, good_ints g -> exists k g', f g = Ok (k, g') /\ gi g' = gi g /\ gr g' = gr g /\ P k.
