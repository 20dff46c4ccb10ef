(** Number operations. The C++ templates and [double] code that needs only + - * / and comparisons
    is modelled over a record of operations, with two instances: the real numbers (idealised
    arithmetic, used for the theorems) and IEEE-754 binary64 ([SpecFloat], used for concrete
    witnesses about rounding, infinities and NaN). No repository code is modelled here. *)
From Coq Require Import ZArith Reals Bool.
From Coq Require Import Floats.SpecFloat.

Record numops (N : Type) : Type := mkOps {
  nzero : N;
  none_ : N;                     (* 1.0 *)
  neps : N;                      (* EPS of src/helper_templates.cc:17, 1e-12 *)
  nofZ : Z -> N;                 (* conversion from int *)
  nadd : N -> N -> N;
  nsub : N -> N -> N;
  nmul : N -> N -> N;
  ndiv : N -> N -> N;
  nltb : N -> N -> bool;         (* a < b, and b > a *)
  nleb : N -> N -> bool          (* a <= b, and b >= a *)
}.
Arguments nzero {N}. Arguments none_ {N}. Arguments neps {N}. Arguments nofZ {N}.
Arguments nadd {N}. Arguments nsub {N}. Arguments nmul {N}. Arguments ndiv {N}.
Arguments nltb {N}. Arguments nleb {N}.

(** Real numbers. *)
Definition Rltb (x y : R) : bool := if Rlt_dec x y then true else false.
Definition Rleb (x y : R) : bool := if Rle_dec x y then true else false.
Definition R_ops : numops R :=
  mkOps R 0%R 1%R (/ IZR (10 ^ 12))%R IZR Rplus Rminus Rmult Rdiv Rltb Rleb.

(** IEEE-754 binary64: precision 53, maximal exponent 1024. *)
Definition F : Type := spec_float.
Definition Fprec : Z := 53%Z.
Definition Femax : Z := 1024%Z.
Definition Fof (z : Z) : F := binary_normalize Fprec Femax z 0 false.
Definition F_ops : numops F :=
  mkOps F (S754_zero false) (Fof 1)
        (SFdiv Fprec Femax (Fof 1) (Fof (10 ^ 12)))
        Fof
        (SFadd Fprec Femax) (SFsub Fprec Femax) (SFmul Fprec Femax) (SFdiv Fprec Femax)
        SFltb SFleb.
