(** What is assumed of the C library's exp and log on doubles. *)
From Coq Require Import List ZArith Bool Reals Floats.SpecFloat.
From Verif Require Import Base NumOps DoubleSpec.
Import ListNotations.
Open Scope R_scope.

(** exp of a non-positive number has relative error [v] (or an error of 2^-1075 if it underflows); log of a number
    between 1/4 and 2^40 has the error [v] times (1 + the result). No more is assumed, not even that they are monotone. *)
Record libm (fexp flog : F -> F) (v : R) : Prop := mkLibm {
  libm_v : 0 <= v <= / 1000;
  libm_exp : forall x, double x -> dval x <= 0 ->
    double (fexp x) /\ 0 <= dval (fexp x) /\ Rabs (dval (fexp x) - exp (dval x)) <= v * exp (dval x) + eta64;
  libm_log : forall x, double x -> / 4 <= dval x <= powerRZ 2 40 ->
    double (flog x) /\ Rabs (dval (flog x) - ln (dval x)) <= v * (1 + Rabs (ln (dval x)))
}.
(** numeric_limits<double>::lowest() *)
Definition f_lowest : F := S754_finite true 9007199254740991 971.
