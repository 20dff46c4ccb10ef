(** std::unordered_map as an association list with one entry per key ([lookup] is in EngineModel.v).
    No repository code is modelled here. *)
From Coq Require Import List Bool.
From Verif Require Import Base EngineModel.
Import ListNotations.

Section Map.
Context {K : Type}.
Variable keqb : K -> K -> bool.

(** m[k] = v *)
Fixpoint mput {V} (m : list (K * V)) (k : K) (v : V) : list (K * V) :=
  match m with
  | [] => [(k, v)]
  | (k', v') :: r => if keqb k' k then (k', v) :: r else (k', v') :: mput r k v
  end.

(** m.at(k) *)
Definition mat {V} (m : list (K * V)) (k : K) : outcome V :=
  match lookup keqb k m with Some v => Ok v | None => Throw end.

(** m.erase(k) *)
Definition mdel {V} (m : list (K * V)) (k : K) : list (K * V) := filter (fun p => negb (keqb (fst p) k)) m.

(** m.find(k) != m.end() *)
Definition has_key {V} (m : list (K * V)) (k : K) : bool :=
  match lookup keqb k m with Some _ => true | None => false end.

(** for (k : l) if (f(k) is defined) m[k] = f(k); *)
Definition mbuild {V} (f : K -> option V) (l : list K) (m : list (K * V)) : list (K * V) :=
  fold_left (fun m k => match f k with Some v => mput m k v | None => m end) l m.
End Map.
