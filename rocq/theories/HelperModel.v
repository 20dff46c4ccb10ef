(** Model of src/helper_templates.cc and of RandManager (include/thts_manager.h:85-128). *)
From Coq Require Import List ZArith Bool.
From Verif Require Import Base NumOps.
Import ListNotations.

(** Random generator: two infinite streams of raw draws and how many of each were consumed.
    [gi] are the outputs of the uniform_int_distribution(0,RAND_MAX), [gr] those of the
    uniform_real_distribution(0,1); theorems quantify over all streams.
    RandManager, include/thts_manager.h:85-105. The mutex rng_lock is not modelled: both functions
    are one critical section. *)
Record rng (N : Type) : Type := mkRng {
  gi : nat -> Z;
  gr : nat -> N;
  ni : nat;
  nr : nat
}.
Arguments gi {N}. Arguments gr {N}. Arguments ni {N}. Arguments nr {N}. Arguments mkRng {N}.

(** RandManager::get_rand_int, include/thts_manager.h:114-118. Remainder by zero is undefined. *)
Definition get_rand_int {N} (min_included max_excluded : Z) (g : rng N) : outcome (Z * rng N) :=
  let d := (max_excluded - min_included)%Z in
  if (d =? 0)%Z then UB
  else Ok ((min_included + Z.rem (gi g (ni g)) d)%Z, mkRng (gi g) (gr g) (S (ni g)) (nr g)).

(** RandManager::get_rand_uniform, include/thts_manager.h:124-127. *)
Definition get_rand_uniform {N} (g : rng N) : N * rng N :=
  (gr g (nr g), mkRng (gi g) (gr g) (ni g) (S (nr g))).

(** operator[] on a vector: out of range is undefined. *)
Definition vec_at {A} (l : list A) (i : Z) : outcome A :=
  if (i <? 0)%Z then UB
  else match nth_error l (Z.to_nat i) with Some x => Ok x | None => UB end.

(** vector::at: out of range throws. *)
Definition vec_at_checked {A} (l : list A) (i : Z) : outcome A :=
  if (i <? 0)%Z then Throw
  else match nth_error l (Z.to_nat i) with Some x => Ok x | None => Throw end.

Section MaxKey.
Context {T V : Type}.
Variable ltb : V -> V -> bool.       (* operator< on NumericT; val > best is ltb best val *)
Variable lowest : V.                 (* numeric_limits<NumericT>::lowest() *)

(** Loop of get_max_key_break_ties_randomly, src/helper_templates.cc:33-44. The map is given as the
    list of its entries in iteration order. *)
Fixpoint best_keys_loop (m : list (T * V)) (best : V) (keys : list T) : list T :=
  match m with
  | [] => keys
  | (k, v) :: rest =>
      if ltb v best then best_keys_loop rest best keys
      else if ltb best v then best_keys_loop rest v [k]
      else best_keys_loop rest best (keys ++ [k])
  end.

(** get_max_key_break_ties_randomly, src/helper_templates.cc:31-49. *)
Definition get_max_key {N} (m : list (T * V)) (g : rng N) : outcome (T * rng N) :=
  let keys := best_keys_loop m lowest [] in
  match keys with
  | [k] => Ok (k, g)
  | _ =>
      bind (get_rand_int 0 (Z.of_nat (length keys)) g) (fun '(i, g') =>
      bind (vec_at keys i) (fun k => Ok (k, g')))
  end.
End MaxKey.

Section Sample.
Context {T N : Type}.
Variable O : numops N.

(** Loop of sample_from_distribution, src/helper_templates.cc:78-98. The map is given as the list of
    its entries in iteration order; [i < distr_size] holds iff entries are left. *)
Fixpoint sample_loop (m : list (T * N)) (sumw u running : N) : outcome T :=
  match m with
  | [] => Throw                                   (* 100-109 *)
  | (k, w) :: rest =>
      let running' := nadd O running (ndiv O w sumw) in
      let too_much := nltb O (nadd O sumw (neps O)) running' in
      let too_early := nleb O sumw running' &&
                       match rest with [] => false | _ => true end in
      if too_much || too_early then Throw
      else if nltb O u running' then Ok k
      else sample_loop rest sumw u running'
  end.

Definition sum_weights (m : list (T * N)) : N :=
  fold_left (fun acc p => nadd O acc (snd p)) m (nzero O).

(** sample_from_distribution, src/helper_templates.cc:63-110. *)
Definition sample_from_distribution (m : list (T * N)) (normalised : bool) (g : rng N)
  : outcome (T * rng N) :=
  let sumw := if normalised then none_ O else sum_weights m in
  let '(u, g') := get_rand_uniform g in
  bind (sample_loop m sumw u (nzero O)) (fun k => Ok (k, g')).
End Sample.
