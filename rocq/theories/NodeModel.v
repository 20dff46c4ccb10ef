(** Model of the node functions of src/thts_decision_node.cpp and src/thts_chance_node.cpp that EngineModel.v does not
    cover: roles, child access and pretty printing.

    Simplifications: printing produces pieces ([piece]) whose texts are concatenated, in the order in which they are
    written to the stringstream; the texts of values, numbers, actions and observations are given by functions. Only
    depths >= 0 are modelled (for a negative depth the base case is never reached and everything is printed), and
    2*depth is assumed to fit an int. Children are printed in the iteration order of their map. *)
From Coq Require Import ZArith Bool Ascii String List.
From Verif Require Import Base EngineModel.
Import ListNotations.

(** is_opponent, thts_decision_node.cpp:141-144 and thts_chance_node.cpp:143-146; [two] is is_two_player_game. *)
Definition is_opponent (two : bool) (timestep : Z) : bool := if negb two then false else (Z.land timestep 1 =? 1)%Z.

Section Nodes.
Context {S A : Type}.
Variable seqb : S -> S -> bool.
Variable aeqb : A -> A -> bool.
Variable C : @econf S A.

(** is_root_node, thts_decision_node.cpp:126-128. *)
Definition is_root_node (n : @dnode S A) : bool := (ddepth n =? 0)%Z.
(** get_num_children, thts_decision_node.cpp:156-158 and thts_chance_node.cpp:151-153. *)
Definition num_children_d (n : @dnode S A) : Z := Z.of_nat (length (dkids n)).
Definition num_children_c (n : @cnode S A) : Z := Z.of_nat (length (ckids n)).
(** has_child_node_itfc and get_child_node_itfc, thts_decision_node.cpp:165-175 and thts_chance_node.cpp:160-170. *)
Definition has_child_d (n : @dnode S A) (a : A) : bool := match lookup aeqb a (dkids n) with Some _ => true | None => false end.
Definition get_child_d (n : @dnode S A) (a : A) : outcome nat := match lookup aeqb a (dkids n) with Some c => Ok c | None => Throw end.
Definition has_child_c (n : @cnode S A) (o : S) : bool := match lookup seqb o (ckids n) with Some _ => true | None => false end.
Definition get_child_c (n : @cnode S A) (o : S) : outcome nat := match lookup seqb o (ckids n) with Some d => Ok d | None => Throw end.

(** Pieces written to the stream. *)
Inductive piece : Type :=
| DHead (d : nat) (visits : Z)        (* "D(vl=" value ",#v=" visits ")[" , thts_decision_node.cpp:200 *)
| CHead (c : nat) (visits : Z)        (* "C(vl=" value ",#v=" visits ")[" , thts_chance_node.cpp:195 *)
| Dots                                (* "..." *)
| Close                               (* "]," *)
| Newline
| Tab                                 (* "|\t" *)
| ActEdge (a : A)                     (* "\"" action "\"->" *)
| ObsEdge (o : S).                    (* "{" observation "}->" *)

(** get_pretty_print_string_helper of a decision node, thts_decision_node.cpp:198-223, called with depth = 2*[levels] and
    num_tabs = [tabs]; the helper of its chance children, thts_chance_node.cpp:193-211, is called with depth odd, and
    calls this one again with depth - 2. *)
Fixpoint print_d (m : @store S A) (levels tabs d : nat) : list piece :=
  match nth_error (dh m) d with
  | None => []                                                                  (* no such node *)
  | Some n =>
      DHead d (dvisits n) ::
      match levels with
      | 0 => (if is_leaf C n then [] else [Dots]) ++ [Close]                    (* 203-207 *)
      | Datatypes.S k =>
          flat_map (fun '(a, c) =>                                              (* 210-217 *)
            Newline :: repeat Tab (tabs + 1) ++ ActEdge a ::
            match nth_error (ch m) c with
            | None => []
            | Some x =>
                CHead c (cvisits x) ::
                flat_map (fun '(o, e) =>
                  Newline :: repeat Tab (tabs + 2) ++ ObsEdge o :: print_d m k (tabs + 2) e) (ckids x) ++
                Newline :: repeat Tab (tabs + 1) ++ [Close]
            end) (dkids n) ++
          Newline :: repeat Tab tabs ++ [Close]                                 (* 220-222 *)
      end
  end.

Variable show_dval show_cval : nat -> string.      (* get_pretty_print_val *)
Variable show_int : Z -> string.
Variable show_action : A -> string.
Variable show_obs : S -> string.
Definition quote : string := String (ascii_of_nat 34) EmptyString.
Definition text (p : piece) : string :=
  match p with
  | DHead d v => "D(vl=" ++ show_dval d ++ ",#v=" ++ show_int v ++ ")["
  | CHead c v => "C(vl=" ++ show_cval c ++ ",#v=" ++ show_int v ++ ")["
  | Dots => "..."
  | Close => "],"
  | Newline => String (ascii_of_nat 10) EmptyString
  | Tab => "|" ++ String (ascii_of_nat 9) EmptyString
  | ActEdge a => quote ++ show_action a ++ quote ++ "->"
  | ObsEdge o => "{" ++ show_obs o ++ "}->"
  end.
(** get_pretty_print_string, thts_decision_node.cpp:183-188. *)
Definition pretty_print (m : @store S A) (depth d : nat) : string := String.concat "" (map text (print_d m depth 0 d)).
End Nodes.
