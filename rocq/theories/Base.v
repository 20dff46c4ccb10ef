(** Common definitions used by several models. No repository code is modelled here. *)
From Coq Require Import List ZArith.
Import ListNotations.

(** Result of running a C++ function: a value, a C++ exception, or undefined behaviour.
    The three are kept distinct so that no theorem can mistake one for another. *)
Inductive outcome (A : Type) : Type :=
| Ok (a : A)
| Throw
| UB.
Arguments Ok {A} a.
Arguments Throw {A}.
Arguments UB {A}.

Definition bind {A B} (m : outcome A) (f : A -> outcome B) : outcome B :=
  match m with Ok a => f a | Throw => Throw | UB => UB end.

(** [upd l i x] replaces position [i] of [l] by [x] (no change when [i] is out of range). *)
Fixpoint upd {A} (l : list A) (i : nat) (x : A) : list A :=
  match l, i with
  | [], _ => []
  | _ :: t, O => x :: t
  | h :: t, S j => h :: upd t j x
  end.

(** Number of elements satisfying a boolean test. *)
Fixpoint countb {A} (f : A -> bool) (l : list A) : Z :=
  match l with
  | [] => 0%Z
  | h :: t => ((if f h then 1 else 0) + countb f t)%Z
  end.

(** Sum of an integer weight over a list. *)
Fixpoint sumZ {A} (f : A -> Z) (l : list A) : Z :=
  match l with
  | [] => 0%Z
  | h :: t => (f h + sumZ f t)%Z
  end.

(** A boolean test that decides equality. *)
Definition decides {T} (eqb : T -> T -> bool) : Prop := forall x y, eqb x y = true <-> x = y.
