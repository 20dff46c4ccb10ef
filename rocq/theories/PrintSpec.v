(** What printed text means. Independent of the model. *)
From Coq Require Import List ZArith Bool String Ascii.
From Verif Require Import Base.
Import ListNotations.
Local Open Scope string_scope.

(** The number a string of decimal digits stands for, with an optional minus sign. *)
Definition digit (c : ascii) : option Z :=
  let n := Z.of_nat (nat_of_ascii c) in if ((48 <=? n) && (n <=? 57))%Z then Some (n - 48)%Z else None.
Fixpoint read_digits (s : string) (z : Z) : option Z :=
  match s with
  | "" => Some z
  | String c r => match digit c with Some d => read_digits r (10 * z + d)%Z | None => None end
  end.
Definition read_int (s : string) : option Z :=
  match s with
  | "" | "-" => None
  | String "-" r => option_map Z.opp (read_digits r 0)
  | _ => read_digits s 0
  end.

(** All of [l] could be printed, as [ss]. *)
Definition shown {T} (show : T -> outcome string) (l : list T) (ss : list string) : Prop :=
  Forall2 (fun x s => show x = Ok s) l ss.
(** Printed as the elements, in order, between brackets with commas between them. *)
Definition listing (op cl : string) (ss : list string) : string := op ++ String.concat "," ss ++ cl.
