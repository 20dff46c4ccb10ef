(** What IEEE-754 binary64 numbers mean, and what rounding does to a real number. No repository code is modelled
    here. *)
From Coq Require Import ZArith Reals Floats.SpecFloat.
From Verif Require Import NumOps.
Open Scope R_scope.

(** A finite double in the standard representation, and the real number it stands for. *)
Definition double (x : F) : Prop :=
  valid_binary Fprec Femax x = true /\ match x with S754_zero _ | S754_finite _ _ _ => True | _ => False end.
Definition dval (x : F) : R :=
  match x with
  | S754_finite s m e => (if s then -1 else 1) * IZR (Zpos m) * powerRZ 2 e
  | _ => 0
  end.

(** Rounding changes a number by at most the factor [u], or (for tiny numbers) by at most [eta]. *)
Record rounding (rnd : R -> R) (u eta : R) : Prop := mkRounding {
  round_u : 0 <= u <= / 1000;
  round_eta : 0 <= eta;
  round_err : forall x, Rabs (rnd x - x) <= u * Rabs x + eta
}.
(** Rounding respects the order and leaves rounded numbers alone. *)
Definition orderly (rnd : R -> R) : Prop :=
  (forall x y, x <= y -> rnd x <= rnd y) /\ (forall x, rnd (rnd x) = rnd x).

(** The unit roundoff 2^-53 and half the smallest positive double, 2^-1075. *)
Definition u64 : R := powerRZ 2 (-53).
Definition eta64 : R := powerRZ 2 (-1075).

(** Real arithmetic in which every result is rounded; the conversion of an int is exact. *)
Definition rnd_ops (rnd : R -> R) : numops R :=
  mkOps R 0 1 (rnd (/ IZR (10 ^ 12))) IZR
        (fun x y => rnd (x + y)) (fun x y => rnd (x - y)) (fun x y => rnd (x * y)) (fun x y => rnd (x / y)) Rltb Rleb.
