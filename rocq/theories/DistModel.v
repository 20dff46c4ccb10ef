(** Model of src/distributions/*.cc and include/distributions/*.h. *)
From Coq Require Import List ZArith Bool.
From Verif Require Import Base NumOps HelperModel.
Import ListNotations.

Section Dist.
Context {T N : Type}.
Variable teqb : T -> T -> bool.      (* std::equal_to<T> *)
Variable O : numops N.

(** AliasTableEntry, include/distributions/categorical_distribution.h (struct at the top of the class). *)
Record entry : Type := mkEntry { thr : N; first : T; second : T }.

(** Writes alias_table[i..] in the reset loop, src/distributions/categorical_distribution.cc:129-139.
    Writing past the end of the vector is undefined. *)
Fixpoint reset_from (m : list (T * N)) (n : Z) (sumw : N) (i : nat) (t : list entry) : outcome (list entry) :=
  match m with
  | [] => Ok t
  | (k, w) :: rest =>
      if Nat.ltb i (length t)
      then reset_from rest n sumw (S i)
             (upd t i (mkEntry (ndiv O (nmul O w (nofZ O n)) sumw) k k))
      else UB
  end.

(** Partition loop, src/distributions/categorical_distribution.cc:141-149. The vectors are lists with
    their back element first. *)
Fixpoint partition_from (t : list entry) (i : nat) (large small : list nat) : list nat * list nat :=
  match t with
  | [] => (large, small)
  | e :: rest =>
      if nltb O (none_ O) (thr e) then partition_from rest (S i) (i :: large) small
      else if nltb O (thr e) (none_ O) then partition_from rest (S i) large (i :: small)
      else partition_from rest (S i) large small
  end.

(** Pairing loop, src/distributions/categorical_distribution.cc:151-165. One unit of [fuel] per
    iteration; running out of fuel is reported as [Throw] (the code never throws here). Accesses
    outside the table are [UB]. *)
Fixpoint pair_loop (fuel : nat) (t : list entry) (large small : list nat)
  : outcome (list entry * list nat * list nat) :=
  match large, small with
  | l :: large', s :: small' =>
      match fuel with
      | 0%nat => Throw
      | S fuel' =>
          match nth_error t s, nth_error t l with
          | Some es, Some el =>
              let t1 := upd t s (mkEntry (thr es) (first es) (first el)) in
              match nth_error t1 l with
              | Some el1 =>
                  let v := nsub O (thr el1) (nsub O (none_ O) (thr es)) in
                  let t2 := upd t1 l (mkEntry v (first el1) (second el1)) in
                  if nltb O (none_ O) v then pair_loop fuel' t2 (l :: large') small'
                  else if nltb O v (none_ O) then pair_loop fuel' t2 large' (l :: small')
                  else pair_loop fuel' t2 large' small'
              | None => UB
              end
          | _, _ => UB
          end
      end
  | _, _ => Ok (t, large, small)
  end.

(** Loops setting the leftover thresholds to 1.0, src/distributions/categorical_distribution.cc:167-173. *)
Fixpoint set_ones (t : list entry) (is : list nat) : outcome (list entry) :=
  match is with
  | [] => Ok t
  | i :: rest =>
      match nth_error t i with
      | Some e => set_ones (upd t i (mkEntry (none_ O) (first e) (second e))) rest
      | None => UB
      end
  end.

(** reconstruct_alias_table from the partition on, src/distributions/categorical_distribution.cc:141-174. *)
Definition build (t : list entry) : outcome (list entry) :=
  let '(large, small) := partition_from t 0 [] [] in
  bind (pair_loop (length t) t large small) (fun '(t1, large1, small1) =>
  bind (set_ones t1 (rev large1)) (fun t2 => set_ones t2 (rev small1))).

(** reconstruct_alias_table(false), src/distributions/categorical_distribution.cc:123-175. *)
Definition reconstruct (m : list (T * N)) (t : list entry) : outcome (list entry) :=
  bind (reset_from m (Z.of_nat (length m)) (sum_weights O m) 0 t) build.

(** construct_alias_table, src/distributions/categorical_distribution.cc:82-96 (with the call
    reconstruct_alias_table(true), which skips the reset loop). [t] is the table before the
    push_backs; it is empty at both call sites. *)
Definition construct (m : list (T * N)) (t : list entry) : outcome (list entry) :=
  let n := Z.of_nat (length m) in
  let s := sum_weights O m in
  build (t ++ map (fun '(k, w) => mkEntry (ndiv O (nmul O w (nofZ O n)) s) k k) m).

(** CategoricalDistribution, include/distributions/categorical_distribution.h. The map is the list of
    its entries in iteration order. Sharing of the map with the caller is not modelled. *)
Record cat : Type := mkCat {
  distr : list (T * N);
  use_alias : bool;
  freq : Z;
  num_updates : Z;
  table : list entry
}.

(** Constructor, src/distributions/categorical_distribution.cc:19-32. *)
Definition cat_new (m : list (T * N)) (ua : bool) (f : Z) : outcome cat :=
  if ua then bind (construct m []) (fun t => Ok (mkCat m ua f 0 t))
  else Ok (mkCat m ua f 0 []).

(** sample, src/distributions/categorical_distribution.cc:34-46. *)
Definition cat_sample (c : cat) (g : rng N) : outcome (T * rng N) :=
  if negb (use_alias c) then sample_from_distribution O (distr c) false g
  else
    bind (get_rand_int 0 (Z.of_nat (length (distr c))) g) (fun '(i, g1) =>
    bind (vec_at (table c) i) (fun e =>
    if nltb O (thr e) (none_ O) then
      let '(u, g2) := get_rand_uniform g1 in
      if nltb O u (thr e) then Ok (first e, g2) else Ok (second e, g2)
    else Ok (second e, g1))).

(** unordered_map::insert_or_assign: an existing key keeps its place; inserting a new key may
    rearrange the iteration order in any way, which is what [reorder] stands for. *)
Fixpoint assign_key (m : list (T * N)) (k : T) (w : N) : list (T * N) :=
  match m with
  | [] => []
  | (k', w') :: rest => if teqb k' k then (k', w) :: rest else (k', w') :: assign_key rest k w
  end.
Definition mem_key (m : list (T * N)) (k : T) : bool := existsb (fun p => teqb (fst p) k) m.
Definition insert_or_assign (reorder : list (T * N) -> list (T * N)) (m : list (T * N)) (k : T) (w : N) :=
  if mem_key m k then assign_key m k w else reorder ((k, w) :: m).

(** update(key, weight), src/distributions/categorical_distribution.cc:48-56. *)
Definition cat_update (reorder : list (T * N) -> list (T * N)) (k : T) (w : N) (c : cat) : outcome cat :=
  let m := insert_or_assign reorder (distr c) k w in
  let nu := (num_updates c + 1)%Z in
  if use_alias c && (nu =? freq c)%Z
  then bind (reconstruct m (table c)) (fun t => Ok (mkCat m (use_alias c) (freq c) 0 t))
  else Ok (mkCat m (use_alias c) (freq c) nu (table c)).

(** update(new_distr), src/distributions/categorical_distribution.cc:63-75. [distr] is assigned
    before the sizes are compared, so both sides of the comparison are the new map. *)
Definition cat_replace (m : list (T * N)) (c : cat) : outcome cat :=
  let distr' := m in
  if use_alias c then
    if Nat.eqb (length m) (length distr')
    then bind (reconstruct distr' (table c)) (fun t => Ok (mkCat distr' true (freq c) 0 t))
    else bind (construct distr' []) (fun t => Ok (mkCat distr' true (freq c) 0 t))
  else Ok (mkCat distr' false (freq c) 0 (table c)).

(** DiscreteUniformDistribution::sample, src/distributions/discrete_uniform_distribution.cc:16-19. *)
Definition uniform_sample (keys : list T) (g : rng N) : outcome (T * rng N) :=
  bind (get_rand_int 0 (Z.of_nat (length keys)) g) (fun '(i, g1) =>
  bind (vec_at_checked keys i) (fun k => Ok (k, g1))).

(** MixedDistribution::sample, src/distributions/mixed_distribution.cc:28-31. A component is its
    sample function. *)
Definition mixed_sample (m : list ((rng N -> outcome (T * rng N)) * N)) (g : rng N) : outcome (T * rng N) :=
  bind (sample_from_distribution O m true g) (fun '(d, g1) => d g1).
End Dist.
Arguments mkEntry {T N}. Arguments thr {T N}. Arguments first {T N}. Arguments second {T N}.
Arguments mkCat {T N}. Arguments distr {T N}. Arguments use_alias {T N}. Arguments freq {T N}.
Arguments num_updates {T N}. Arguments table {T N}.
