(** Model of the printing of states, actions, vectors, maps and node ids: src/thts_types.cpp (get_pretty_print_string and
    operator<<) and src/helper_templates.cc (vector_pretty_print_string, unordered_map_pretty_print_string).

    Simplifications: a stringstream is the string written so far. How operator<< prints doubles and pointers is a
    parameter; int is printed in decimal (default stream flags and locale). *)
From Coq Require Import List ZArith Bool String Decimal DecimalString.
From Verif Require Import Base TypesModel.
Import ListNotations.
Local Open Scope string_scope.

(** operator<<(ostream&, int) of the standard library. *)
Definition print_int (z : Z) : string := NilZero.string_of_int (Z.to_int z).

(** get_pretty_print_string, thts_types.cpp:28-30, 43-45, 92-96, 130-134, 171-175; operator<<, thts_types.cpp:290-298,
    334-342, 392-420. *)
Definition obs_print (x : obs) : outcome string :=
  match x with
  | NullObs => Throw
  | NullState => Throw
  | IntState a => Ok ("(" ++ print_int a ++ ")")
  | IntPairState a b => Ok ("(" ++ print_int a ++ "," ++ print_int b ++ ")")
  | Int3TupleState a b c => Ok ("(" ++ print_int a ++ "," ++ print_int b ++ "," ++ print_int c ++ ")")
  end.
(** thts_types.cpp:58-60, 207-211, 243-247; operator<<, thts_types.cpp:379-387, 422-440. *)
Definition action_print (x : action) : outcome string :=
  match x with
  | NullAction => Throw
  | IntAction a => Ok (print_int a)
  | StringAction a => Ok a
  end.
(** operator<<(ostream&, DNodeIdTuple), thts_types.cpp:503-506. *)
Definition id_print (x : Z * obs) : outcome string :=
  bind (obs_print (snd x)) (fun s => Ok ("DNodeId(" ++ print_int (fst x) ++ "," ++ s ++ ")")).

(** The loop of vector_pretty_print_string, helper_templates.cc:121-128: [ss] is the stream, [first] is first_iter. *)
Fixpoint vector_loop {T} (show : T -> outcome string) (l : list T) (ss : string) (first : bool) : outcome string :=
  match l with
  | [] => Ok ss
  | v :: r =>
      let ss1 := if negb first then ss ++ "," else ss in
      bind (show v) (fun s => vector_loop show r (ss1 ++ s) false)
  end.
(** vector_pretty_print_string, helper_templates.cc:116-131; operator<< for ActionVector and StringActionVector,
    thts_types.cpp:448-456. *)
Definition vector_print {T} (show : T -> outcome string) (l : list T) : outcome string :=
  bind (vector_loop show l "[" true) (fun ss => Ok (ss ++ "]")).

(** The loop of unordered_map_pretty_print_string, helper_templates.cc:141-148; the map is its entries in iteration order. *)
Fixpoint map_loop {K V} (show_k : K -> outcome string) (show_v : V -> outcome string) (delimiter : string)
    (m : list (K * V)) (ss : string) (first : bool) : outcome string :=
  match m with
  | [] => Ok ss
  | (k, v) :: r =>
      let ss1 := if negb first then ss ++ "," else ss in
      bind (show_k k) (fun s => bind (show_v v) (fun t => map_loop show_k show_v delimiter r (ss1 ++ s ++ delimiter ++ t) false))
  end.
(** unordered_map_pretty_print_string, helper_templates.cc:136-151; operator<< for the distributions,
    thts_types.cpp:458-476 (delimiter ":", helper_templates.h:79). *)
Definition map_print {K V} (show_k : K -> outcome string) (show_v : V -> outcome string) (delimiter : string)
    (m : list (K * V)) : outcome string :=
  bind (map_loop show_k show_v delimiter m "{" true) (fun ss => Ok (ss ++ "}")).

(** The loop of operator<<(ostream&, DNodeTable), thts_types.cpp:512-515: the weak pointers of the table, None for an
    expired one, become shared pointers; the shared_ptr constructor throws bad_weak_ptr if the pointer has expired. The
    ids of a table are pairwise different, so insert_or_assign inserts. *)
Fixpoint table_lock {K P} (tbl : list (K * option P)) : outcome (list (K * P)) :=
  match tbl with
  | [] => Ok []
  | (k, Some p) :: r => bind (table_lock r) (fun l => Ok ((k, p) :: l))
  | (_, None) :: _ => Throw
  end.
(** operator<<(ostream&, DNodeTable), thts_types.cpp:511-518; [order] is the iteration order of the new map. *)
Definition table_print {P} (show_p : P -> string) (order : list ((Z * obs) * P) -> list ((Z * obs) * P))
    (tbl : list ((Z * obs) * option P)) : outcome string :=
  bind (table_lock tbl) (fun l => map_print id_print (fun p => Ok (show_p p)) ":" (order l)).
