(** Specification of recommendations by MENTS and its relatives. *)
From Coq Require Import List ZArith Reals.
From Verif Require Import Base EngineModel MentsModel.
Import ListNotations.
Open Scope R_scope.

(** [a] is a best element of [l] among those that satisfy [ok], or among all if none does. *)
Definition best_choice {A} (l : list A) (ok : A -> Prop) (v : A -> R) (a : A) : Prop :=
  In a l /\ ((ok a /\ forall b, In b l -> ok b -> v b <= v a) \/
             ((forall b, In b l -> ~ ok b) /\ forall b, In b l -> v b <= v a)).

(** [a] is a valid action, and a child with the most visits if there are children. *)
Definition most_visited {S A X} (l : list A) (kids : list (A * (@cnode S A * X))) (a : A) : Prop :=
  In a l /\ (kids <> [] -> exists c y, In (a, (c, y)) kids /\
    forall b c' y', In (b, (c', y')) kids -> (cvisits c' <= cvisits c)%Z).

(** Action [a] has a child that was visited often enough. *)
Definition visited_enough {S A X} (M : @mconf S A) (kids : list (A * (@cnode S A * X))) (a : A) : Prop :=
  exists c y, In (a, (c, y)) kids /\ (mthreshold M <= cvisits c)%Z.
(** Action [a] has a child with enough backups. *)
Definition backed_up_enough {S A} (M : @mconf S A) (kids : list (A * vmem)) (a : A) : Prop :=
  exists y, In (a, y) kids /\ (mthreshold M <= v_nb y)%Z.
