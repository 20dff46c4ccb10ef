(** Model of src/thts_types.cpp and include/thts_types.h: equality and hashing of the provided states, actions and node
    ids, and of src/helper_templates.cc: hash_combine.

    Simplifications: an object is its class and its fields. User-defined subclasses are not modelled. int and string
    fields are Z and string. size_t is 64 bit. *)
From Coq Require Import ZArith Bool String.
From Verif Require Import Base.

(** Objects that are an Observation: the classes of include/thts_types.h:38-145. *)
Inductive obs : Type :=
| NullObs                              (* Observation itself *)
| NullState                            (* State itself *)
| IntState (state : Z)
| IntPairState (first second : Z)
| Int3TupleState (first second third : Z).
(** Objects that are an Action: include/thts_types.h:75-183. *)
Inductive action : Type :=
| NullAction
| IntAction (a : Z)
| StringAction (a : string).

(** equals_itfc, thts_types.cpp:24-26, 39-41, 71-87, 109-124, 147-164. A failing dynamic_cast gives false. *)
Definition obs_equals (x y : obs) : outcome bool :=
  match x with
  | NullObs => Throw
  | NullState => Throw
  | IntState a => match y with IntState b => Ok (a =? b)%Z | _ => Ok false end
  | IntPairState a b => match y with IntPairState c d => Ok ((a =? c) && (b =? d))%Z | _ => Ok false end
  | Int3TupleState a b c =>
      match y with Int3TupleState d e f => Ok ((a =? d) && (b =? e) && (c =? f))%Z | _ => Ok false end
  end.
(** thts_types.cpp:54-56, 186-202, 222-238. *)
Definition action_equals (x y : action) : outcome bool :=
  match x with
  | NullAction => Throw
  | IntAction a => match y with IntAction b => Ok (a =? b)%Z | _ => Ok false end
  | StringAction a => match y with StringAction b => Ok (String.eqb a b) | _ => Ok false end
  end.

Section Hash.
Variable hash_int : Z -> Z.            (* std::hash<int> *)
Variable hash_string : string -> Z.    (* std::hash<string> *)
Definition size_max : Z := 2 ^ 64.

(** hash_combine, src/helper_templates.cc:22-26; [h] is the hash of v. *)
Definition hash_combine (cur h : Z) : Z :=
  Z.lxor cur ((h + 2654435769 (* 0x9e3779b9 *) + Z.shiftl cur 6 + Z.shiftr cur 2) mod size_max)%Z.

(** hash, thts_types.cpp:20-22, 35-37, 64-66, 100-104, 136-141. *)
Definition obs_hash (x : obs) : outcome Z :=
  match x with
  | NullObs => Throw
  | NullState => Throw
  | IntState a => Ok (hash_int a)
  | IntPairState a b => Ok (hash_combine (hash_combine 0 (hash_int a)) (hash_int b))
  | Int3TupleState a b c => Ok (hash_combine (hash_combine (hash_combine 0 (hash_int a)) (hash_int b)) (hash_int c))
  end.
(** thts_types.cpp:50-52, 179-181, 215-217. *)
Definition action_hash (x : action) : outcome Z :=
  match x with
  | NullAction => Throw
  | IntAction a => Ok (hash_int a)
  | StringAction a => Ok (hash_string a)
  end.
(** std::hash<DNodeIdTuple>, thts_types.cpp:486-491. *)
Definition id_hash (x : Z * obs) : outcome Z :=
  bind (obs_hash (snd x)) (fun h => Ok (hash_combine (hash_combine 0 (hash_int (fst x))) h)).
(** std::equal_to<DNodeIdTuple>, thts_types.cpp:496-498; && is lazy. *)
Definition id_equals (x y : Z * obs) : outcome bool :=
  if (fst x =? fst y)%Z then obs_equals (snd x) (snd y) else Ok false.
End Hash.
