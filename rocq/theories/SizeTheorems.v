(** Property theorems: the search tree cannot outgrow the environment, C94. *)
From Coq Require Import List ZArith Bool Reals Lia.
From Verif Require Import Base BaseProofs NumOps HelperModel EngineModel EngineSpec EngineTheorems AlgoModel AlgoProofs ReachSpec ReachFollow SizeSpec SizeProofs.
Import ListNotations.

Section Theorems.
Context {S A : Type}.
Variable seqb : S -> S -> bool.
Variable aeqb : A -> A -> bool.
Hypothesis seqb_ok : decides seqb.
Hypothesis aeqb_ok : decides aeqb.
Variable C : @econf S A.

(** ** The specification's lists are what they should be *)
(** Exactly the routes of at most [k] steps, each once if the environment lists nothing twice. *)
Theorem C94_routes : forall k s, (forall p, In p (routes C k s) <-> route C s p /\ (length p <= k)%nat) /\ (no_repeats C -> NoDup (routes C k s)).
Proof. intros k s. split; [exact (routes_in C k s)|intros N; exact (routes_nodup C N k s)]. Qed.
(** Exactly the routes of fewer than [k] steps that do not end in a terminal state, with the actions valid there. *)
Theorem C94_choices : forall k s, (forall p a, In (p, a) (choices C k s) <-> route C s p /\ (length p < k)%nat /\ is_sink C (end_of s p) = false /\ In a (acts C (end_of s p))) /\
  (no_repeats C -> NoDup (choices C k s)).
Proof. intros k s. split; [exact (choices_in C k s)|intros N; exact (choices_nodup C N k s)]. Qed.

(** ** The bound *)
(** However many trials and threads: never more decision nodes than the environment has routes of at most [max_depth] steps,
    and never more chance nodes than there are choices on them. *)
Theorem C94_decision_nodes : forall n s, ereach seqb aeqb C n s -> (length (dh (mem s)) <= length (routes C (horizon C) (root_state C)))%nat.
Proof. exact (size_d seqb aeqb seqb_ok aeqb_ok C). Qed.
Theorem C94_chance_nodes : forall n s, ereach seqb aeqb C n s -> (length (ch (mem s)) <= length (choices C (horizon C) (root_state C)))%nat.
Proof. exact (size_c seqb aeqb seqb_ok aeqb_ok C). Qed.
(** The same holds while any of the algorithms runs. *)
Theorem C94_every_algorithm : forall (G : @algo S A) n g s, areach seqb aeqb C G n g s ->
  (length (dh (mem (base s))) <= length (routes C (horizon C) (root_state C)) /\ length (ch (mem (base s))) <= length (choices C (horizon C) (root_state C)))%nat.
Proof. intros G n g s R. apply areach_ereach in R. split; [eapply C94_decision_nodes|eapply C94_chance_nodes]; eauto. Qed.

(** With at most [a] actions in a state and [b] outcomes of an action. *)
Theorem C94_branching : forall a b, (forall s, is_sink C s = false -> (length (acts C s) <= a)%nat) -> (forall s x, In x (acts C s) -> (length (succs C s x) <= b)%nat) ->
  forall n s, ereach seqb aeqb C n s ->
  (length (dh (mem s)) <= geometric (a * b) (horizon C))%nat /\ (length (ch (mem s)) <= a * geometric (a * b) (horizon C - 1))%nat.
Proof.
  intros a b Ha Hb n s R. split.
  - eapply Nat.le_trans; [eapply C94_decision_nodes; eauto|]. now apply routes_geometric.
  - eapply Nat.le_trans; [eapply C94_chance_nodes; eauto|]. destruct (horizon C) as [|k]; [cbn; lia|]. replace (Datatypes.S k - 1)%nat with k by lia. now apply choices_geometric.
Qed.

(** With the transposition table there is at most one decision node for each state and number of steps in which a route can
    end: a list that has all of these is at least as long as the list of nodes. *)
Theorem C94_table : forall n s, ereach seqb aeqb C n s -> use_tt C = true -> forall L : list (S * nat),
  (forall p, route C (root_state C) p -> (length p <= horizon C)%nat -> In (end_of (root_state C) p, length p) L) -> (length (dh (mem s)) <= length L)%nat.
Proof. intros n s R U L H. eapply size_table; eauto. intros p Ip. apply routes_in in Ip. apply H; tauto. Qed.
(** In particular, with [k] states, at most (max_depth + 1) * k decision nodes. *)
Theorem C94_table_states : forall n s, ereach seqb aeqb C n s -> use_tt C = true -> forall L : list S,
  (forall p, route C (root_state C) p -> In (end_of (root_state C) p) L) -> (length (dh (mem s)) <= (horizon C + 1) * length L)%nat.
Proof.
  intros n s R U L H. replace ((horizon C + 1) * length L)%nat with (length (list_prod L (seq 0 (horizon C + 1)))) by (rewrite prod_length, seq_length; lia).
  eapply C94_table; eauto. intros p Hp Lp. apply in_prod; [auto|]. apply in_seq. lia.
Qed.

(** The bound is exact: without the table, a tree that holds the whole environment has precisely one node for every route. *)
Theorem C94_exact : forall n s, ereach seqb aeqb C n s -> (0 <= max_depth C)%Z -> use_tt C = false -> no_repeats C -> whole seqb aeqb C (mem s) ->
  length (dh (mem s)) = length (routes C (horizon C) (root_state C)).
Proof. exact (size_whole seqb aeqb seqb_ok aeqb_ok C). Qed.
End Theorems.

Print Assumptions C94_routes.
Print Assumptions C94_choices.
Print Assumptions C94_decision_nodes.
Print Assumptions C94_chance_nodes.
Print Assumptions C94_every_algorithm.
Print Assumptions C94_branching.
Print Assumptions C94_table.
Print Assumptions C94_table_states.
Print Assumptions C94_exact.

(** ** Examples that meet the hypotheses *)
(** A walk on 0, 1, ... of one step: two actions, each staying or moving on. *)
Definition size_conf (table : bool) : @econf nat bool :=
  mkConf (fun s => Nat.eqb s 2) (fun _ => [true; false]) (fun s _ => [s; Datatypes.S s]) (fun _ _ o => IZR (Z.of_nat o)) None 1 true table 0 0%nat 0.
Definition size_trial (a : bool) (o : nat) : list (@elabel nat bool) := [LStart 0; LSelect 0 a; LSample 0 o] ++ repeat (LRun 0) 4.
Definition size_run : list (@elabel nat bool) := size_trial true 0 ++ size_trial true 1 ++ size_trial false 0 ++ size_trial false 1 ++ size_trial true 1.
(** Five trials without the table: the tree is whole and has the 5 decision nodes and 2 chance nodes of the bounds. *)
Example C94_witness : exists s, ereach Nat.eqb Bool.eqb (size_conf false) 1 s /\ whole Nat.eqb Bool.eqb (size_conf false) (mem s) /\ no_repeats (size_conf false) /\
  length (dh (mem s)) = 5%nat /\ length (routes (size_conf false) 1 0%nat) = 5%nat /\ length (ch (mem s)) = 2%nat /\ length (choices (size_conf false) 1 0%nat) = 2%nat /\ count is_done (etrace s) = 5%Z.
Proof.
  eexists. split; [exists size_run; vm_compute; reflexivity|]. split.
  - intros d x a o Hd Ns Dp Ia Io.
    do 5 (destruct d as [|d]; [cbn in Hd; injection Hd as <-; cbn in Dp, Ia, Io; try lia;
      destruct Ia as [<-|[<-|[]]], Io as [<-|[<-|[]]]; eexists _, _; (split; eexists; (split; [reflexivity|reflexivity]))|]).
    destruct d; cbn in Hd; discriminate.
  - split; [|repeat split; reflexivity]. intros s. cbn. split; [repeat constructor; cbn; intuition discriminate|]. intros a. repeat constructor; cbn; [intros [E|[]]; lia|tauto].
Qed.
(** The same with the table: three decision nodes, although there are five routes. *)
Example C94_witness_table : exists s, ereach Nat.eqb Bool.eqb (size_conf true) 1 s /\ length (dh (mem s)) = 3%nat /\ length (ch (mem s)) = 2%nat.
Proof. eexists. split; [exists size_run; vm_compute; reflexivity|]. split; reflexivity. Qed.
